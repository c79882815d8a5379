(** Property theorems C88 (consecutive exchanges on one communicator and tag, all interleavings). *)
From Coq Require Import Bool Sorting.Permutation.
From Verif Require Import M_Rma M_Rounds L_Rma L_Rounds.

(** C88: a receive from any source posted for exchange [j] is never matched by a message of another
    exchange, under every interleaving and for any number of exchanges in a row, although the
    messages of all of them carry the same tag. *)
Theorem C88_no_crosstalk : forall n sends, (forall k a t, In t (sends k a) -> t < n) ->
  forall x, xreach n sends x -> forall t j s k, t < n -> In (s, k) (xs_got x t j) -> k = j /\ In t (sends j s).
Proof.
  intros n sends Hs x Hx t j s k Ht Hi. pose proof (xinv_reach n sends Hs x Hx) as I.
  destruct (v_tag n sends x I t j s k Ht Hi) as [-> Hsn]. split; [reflexivity|].
  pose proof (gotc_le n sends x I s t j Hsn Ht) as H. apply (count_occ_In Nat.eq_dec). unfold count in H.
  assert (0 < gotc x t j s); [|lia]. apply (count_occ_In Nat.eq_dec). apply in_map_iff. now exists (s, j).
Qed.
Print Assumptions C88_no_crosstalk.
(** C88: when a rank is past the wait of exchange [j], it has received from exactly the ranks that
    send to it in exchange [j], each once (the order is the interleaving's). *)
Theorem C88_all_received : forall n sends, (forall k a t, In t (sends k a) -> t < n) -> (forall k a, NoDup (sends k a)) ->
  forall x, xreach n sends x -> forall t j, t < n -> received_all x t j ->
  Permutation (map fst (xs_got x t j)) (filter (fun s => existsb (Nat.eqb t) (sends j s)) (seq 0 n)).
Proof. intros n sends Hs Hn x Hx t j Ht Hd. exact (sources n sends Hs x Hx Hn t j Ht Hd). Qed.
Print Assumptions C88_all_received.
(** C88: no reachable state is stuck; ... *)
Theorem C88_never_stuck : forall n sends, (forall k a t, In t (sends k a) -> t < n) -> 0 < n ->
  forall x, xreach n sends x -> exists r x', r < n /\ xstep n sends r x x'.
Proof. intros n sends Hs Hn x Hx. exact (xprogress n sends Hs x Hn Hx). Qed.
Print Assumptions C88_never_stuck.
(** ... nor is one when MPI gives a send no buffer and holds it until its receive takes it: then a
    send and its receive happen in one go and nothing is ever in flight between actions; ... *)
Theorem C88_never_stuck_unbuffered : forall n sends, (forall k a t, In t (sends k a) -> t < n) -> 0 < n ->
  forall x, xreach n sends x -> xs_flight x = [] ->
  exists r x', r < n /\ xs_flight x' = [] /\
    (xstep n sends r x x' \/ exists t y, t < n /\ xstep n sends r x y /\ xs_flight y <> [] /\ xstep n sends t y x').
Proof. intros n sends Hs Hn x Hx H. exact (sync_progress n sends Hs x Hn Hx H). Qed.
Print Assumptions C88_never_stuck_unbuffered.
(** ... and no execution goes on for ever within finitely many exchanges: as long as every rank is in
    one of the first [K], the number of actions is bounded, whatever the interleaving. *)
Theorem C88_terminates : forall n sends, (forall k a t, In t (sends k a) -> t < n) ->
  forall K, exists B, forall l x, xrun n sends l x -> (forall r, r < n -> rs_round (gs_rank (xs_g x) r) <= K) -> l <= B.
Proof. intros n sends Hs K. exact (runs_bounded n sends Hs K). Qed.
Print Assumptions C88_terminates.

(** Two ranks that send to each other. *)
Definition ex_sends : nat -> nat -> list nat := fun _ r => [1 - r].
(** an executable schedule: the ranks act in the given order, a receive takes the first message to it *)
Definition reachedb (st : rstate) (k p : nat) : bool := (k <? rs_round st) || ((rs_round st =? k) && (p <=? rs_phase st)).
Definition allreached n (g : gstate) k p : bool := forallb (fun q => reachedb (gs_rank g q) k p) (seq 0 n).
Definition gact n (sends : nat -> nat -> list nat) (r : nat) (g : gstate) : option gstate :=
  let st := gs_rank g r in
  match rs_phase st with
  | 0 => Some (mkGS (upd_fun (gs_rank g) r (mkRS (rs_round st) 1 (rs_rest st) (rs_reads st))) (upd_fun (gs_win g) r 0))
  | 1 => Some (mkGS (upd_fun (gs_rank g) r (mkRS (rs_round st) 2 (rs_rest st) (rs_reads st))) (gs_win g))
  | 2 => if allreached n g (rs_round st) 2 then Some (mkGS (upd_fun (gs_rank g) r (mkRS (rs_round st) 3 (sends (rs_round st) r) (rs_reads st))) (gs_win g)) else None
  | 3 => match rs_rest st with
         | t :: rest => Some (mkGS (upd_fun (gs_rank g) r (mkRS (rs_round st) 3 rest (rs_reads st))) (upd_fun (gs_win g) t (gs_win g t + 1)))
         | [] => Some (mkGS (upd_fun (gs_rank g) r (mkRS (rs_round st) 4 [] (rs_reads st))) (gs_win g))
         end
  | 4 => if allreached n g (rs_round st) 4 then Some (mkGS (upd_fun (gs_rank g) r (mkRS (rs_round st) 5 (rs_rest st) (rs_reads st))) (gs_win g)) else None
  | 5 => Some (mkGS (upd_fun (gs_rank g) r (mkRS (S (rs_round st)) 0 [] (rs_reads st ++ [gs_win g r]))) (gs_win g))
  | _ => None
  end.
Lemma allreached_spec n g k p : allreached n g k p = true -> forall q, q < n -> reached (gs_rank g q) k p.
Proof.
  intros H q Hq. unfold allreached in H. rewrite forallb_forall in H. specialize (H q ltac:(apply in_seq; lia)). unfold reachedb in H.
  apply Bool.orb_true_iff in H as [H|H]; [left; now apply Nat.ltb_lt|]. apply Bool.andb_true_iff in H as [H1 H2]. right. split; [now apply Nat.eqb_eq|now apply Nat.leb_le].
Qed.
Lemma gact_step n sends r g g' : gact n sends r g = Some g' -> gstep n sends r g g'.
Proof.
  unfold gact. intros H. destruct (rs_phase (gs_rank g r)) as [|[|[|[|[|[|]]]]]] eqn:E; try discriminate.
  - injection H as <-. now apply SZero.
  - injection H as <-. now apply SEnter.
  - destruct (allreached n g _ 2) eqn:A; [|discriminate]. injection H as <-. apply SWait; auto. now apply allreached_spec.
  - destruct (rs_rest (gs_rank g r)) as [|t rest] eqn:R; injection H as <-; [now apply SBarrier|now apply SAcc].
  - destruct (allreached n g _ 4) eqn:A; [|discriminate]. injection H as <-. apply SLeave; auto. now apply allreached_spec.
  - injection H as <-. now apply SRead.
Qed.
(** [act r true]: a step of the counting protocol; [act r false]: a send, or a receive if nothing is left to send *)
Definition xact n sends (x : xstate) (o : nat * bool) : option xstate :=
  let (r, p) := o in let st := gs_rank (xs_g x) r in
  if negb (r <? n) then None else
  if p then
    match gact n sends r (xs_g x) with
    | None => None
    | Some g' =>
        if rs_phase st =? 5 then Some (mkX g' (upd_fun (xs_out x) r (sends (rs_round st) r)) (upd_fun (xs_in x) r (gs_win (xs_g x) r)) (xs_got x) (xs_flight x))
        else if (rs_phase st =? 0) && negb ((length (xs_out x r) =? 0) && (xs_in x r =? 0)) then None
        else Some (mkX g' (xs_out x) (xs_in x) (xs_got x) (xs_flight x))
    end
  else match xs_out x r with
  | t :: rest => Some (mkX (xs_g x) (upd_fun (xs_out x) r rest) (xs_in x) (xs_got x) (xs_flight x ++ [(rs_round st - 1, r, t)]))
  | [] => match xs_in x r, xs_flight x with
    | S m, (k, s, t) :: f2 => if t =? r then Some (mkX (xs_g x) (xs_out x) (upd_fun (xs_in x) r m)
        (upd_fun (xs_got x) r (upd_fun (xs_got x r) (rs_round st - 1) (xs_got x r (rs_round st - 1) ++ [(s, k)]))) f2) else None
    | S m, _ => None | 0, _ => None end
  end.
Lemma xact_step n sends x o x' : xreach n sends x -> xact n sends x o = Some x' -> xreach n sends x'.
Proof.
  destruct o as [r p]. unfold xact. intros Hx H. destruct (r <? n) eqn:Hr; [|discriminate]. apply Nat.ltb_lt in Hr. cbn [negb] in H. destruct p.
  - destruct (gact n sends r (xs_g x)) as [g'|] eqn:G; [|discriminate]. apply gact_step in G. destruct (Nat.eqb_spec (rs_phase (gs_rank (xs_g x) r)) 5) as [E5|N5].
    + injection H as <-. eapply XStep; eauto. now apply XRead.
    + destruct (Nat.eqb_spec (rs_phase (gs_rank (xs_g x) r)) 0) as [E0|N0]; cbn [andb] in H.
      * destruct (Nat.eqb_spec (length (xs_out x r)) 0) as [A|]; [|discriminate]. destruct (Nat.eqb_spec (xs_in x r) 0) as [B|]; [|discriminate].
        injection H as <-. eapply XStep; eauto. apply XProto; auto. intros _. split; auto. now apply length_zero_iff_nil.
      * injection H as <-. eapply XStep; eauto. apply XProto; auto. intros E. lia.
  - destruct (xs_out x r) as [|t rest] eqn:Eo.
    + destruct (xs_in x r) as [|m] eqn:Ei; [discriminate|]. destruct (xs_flight x) as [|[[k s] t] f2] eqn:Ef; [discriminate|].
      destruct (Nat.eqb_spec t r) as [->|]; [|discriminate]. injection H as <-. eapply XStep; eauto. now apply (XRecv n sends r x k s m [] f2).
    + injection H as <-. eapply XStep; eauto. now apply XSend.
Qed.
Fixpoint xexec n sends (x : xstate) (l : list (nat * bool)) : option xstate :=
  match l with [] => Some x | o :: l' => match xact n sends x o with Some x' => xexec n sends x' l' | None => None end end.
Lemma xexec_reach n sends l : forall x x', xreach n sends x -> xexec n sends x l = Some x' -> xreach n sends x'.
Proof.
  induction l as [|o l IH]; intros x x' Hx H; simpl in H; [injection H as <-; auto|].
  destruct (xact n sends x o) as [y|] eqn:E; [|discriminate]. eapply IH; [eapply xact_step; eauto|exact H].
Qed.
(** one exchange up to the count, both ranks in step *)
Definition ex_count : list (nat * bool) := flat_map (fun _ => [(0, true); (1, true)]) (seq 0 7).
(** two exchanges; in the second one rank 0 is through while its message to rank 1 is in flight *)
Definition ex_sched : list (nat * bool) :=
  ex_count ++ [(0, false); (1, false); (1, false); (0, false)] ++ ex_count ++ [(1, false); (0, false); (0, false)].
Example C88_nonvacuous : exists x, xreach 2 ex_sends x /\ received_all x 1 0 /\ received_all x 0 1 /\
  xs_got x 1 0 = [(0, 0)] /\ xs_got x 0 1 = [(1, 1)] /\ xs_flight x = [(1, 0, 1)] /\ xs_in x 1 = 1.
Proof.
  destruct (xexec 2 ex_sends xinit ex_sched) as [x|] eqn:E.
  - exists x. split; [eapply xexec_reach; [apply XInit|exact E]|].
    assert (H : option_map (fun x => (rs_round (gs_rank (xs_g x) 1), rs_round (gs_rank (xs_g x) 0), xs_in x 0, xs_got x 1 0, xs_got x 0 1, (xs_flight x, xs_in x 1))) (xexec 2 ex_sends xinit ex_sched)
      = Some (2, 2, 0, [(0, 0)], [(1, 1)], ([(1, 0, 1)], 1))) by (vm_compute; reflexivity).
    rewrite E in H. cbn [option_map] in H. injection H as H1 H2 H3 H4 H5 H6 H7. unfold received_all. rewrite H1, H2. split; [left; lia|]. split; [right; auto|]. auto.
  - exfalso. assert (H : (match xexec 2 ex_sends xinit ex_sched with Some _ => true | None => false end) = true) by (vm_compute; reflexivity). rewrite E in H. discriminate.
Qed.
