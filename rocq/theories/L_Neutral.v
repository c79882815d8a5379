(** Lemmas about the DriftReduced neutral particles. *)
From Verif Require Import M_Sol S_Sol M_Neutral S_Neutral L_RealBase L_Coord L_Sol L_Sol2 L_Sol3 L_Sol4.
From Flocq Require Import Core.Raux.
From Coq Require Import Lra Lia Psatz List ZArith FinFun.
Import ListNotations.
Open Scope R_scope.

Lemma round_IZR z : round_away (IZR z) = z.
Proof.
  unfold round_away. destruct (Rle_bool_spec 0 (IZR z)); [apply Zfloor_imp|apply Zceil_imp]; rewrite ?plus_IZR, ?minus_IZR; lra.
Qed.
Lemma round_nonneg x : 0 <= x -> (0 <= round_away x)%Z.
Proof. intros H. unfold round_away. rewrite Rle_bool_true by auto. apply Zfloor_lub. simpl. lra. Qed.
Lemma round_near x : Rabs (IZR (round_away x) - x) <= 1/2.
Proof.
  unfold round_away. destruct (Rle_bool_spec 0 x).
  - pose proof (Zfloor_lb (x + 1/2)). pose proof (Zfloor_ub (x + 1/2)). apply Rabs_le. lra.
  - pose proof (Zceil_ub (x - 1/2)). pose proof (Zceil_lb (x - 1/2)). apply Rabs_le. lra.
Qed.

Definition cut (E : drenv) (n : Z) (k : nat) : Z := match k with O => 0%Z | S r => snd (de_dec E (de_size E) n r) end.
Lemma combine_ids (E : drenv) c0 l : forall a m, length l = m ->
  map pid (map (fun '(ipart, (x, v)) => mkNp (new_pos E x) v ((Z.of_nat ipart + c0)%Z, 0%Z) (Some (sp_weight (de_P E))) (Some 0) (Some 0, Some 0) (Some 0))
    (combine (seq a m) l)) = map (fun i => (Z.of_nat i + c0)%Z) (seq a m).
Proof.
  induction l as [|[x v] l IH]; intros a m H; cbn in H; subst m; [reflexivity|]. cbn [seq combine map length]. rewrite IH by reflexivity. reflexivity.
Qed.
Lemma rank_ids E call added n r : env_ok E -> (0 <= n)%Z -> (r < de_size E)%nat ->
  (0 <= cut E n r)%Z -> cut E n r = fst (de_dec E (de_size E) n r) ->
  map pid (add_on_rank E call added n r) = map (fun i => (Z.of_nat i + added)%Z) (seq (Z.to_nat (cut E n r)) (Z.to_nat (cut E n (S r) - cut E n r))).
Proof.
  intros (Hs & Hd & Hw & _) Hn Hr Hc0 Hc. destruct (Hd (de_size E) n Hs Hn) as (_ & _ & Hle & _). specialize (Hle r Hr).
  cbn [cut]. rewrite Hc in *. unfold add_on_rank. destruct (de_dec E (de_size E) n r) as [a b]. cbn [fst snd] in *. destruct (Z.ltb_spec 0 (b - a)) as [H|H].
  - transitivity (map (fun i => (Z.of_nat i + (a + added))%Z) (seq 0 (Z.to_nat (b - a)))).
    + rewrite <- (combine_ids E (a + added) (de_draw E call r (b - a)) 0 (Z.to_nat (b - a))) by (apply Hw; lia).
      f_equal. apply map_ext. intros [i [x v]]. do 2 f_equal. lia.
    + rewrite <- (Nat.add_0_r (Z.to_nat a)) at 1. clear - Hc0. generalize 0%nat as j. generalize (Z.to_nat (b - a)) as m.
      induction m as [|m IH]; intros j; [reflexivity|]. cbn [seq map]. f_equal; [lia|]. rewrite IH. f_equal. f_equal. lia.
  - replace (Z.to_nat (b - a)) with 0%nat by lia. reflexivity.
Qed.
Lemma add_ids_k E call added n k : env_ok E -> (0 <= n)%Z -> (k <= de_size E)%nat -> (0 <= cut E n k)%Z /\
  map pid (concat (map (add_on_rank E call added n) (seq 0 k))) = map (fun i => (Z.of_nat i + added)%Z) (seq 0 (Z.to_nat (cut E n k))).
Proof.
  intros HE Hn. induction k as [|k IH]; intros Hk; [split; [cbn; lia|reflexivity]|]. destruct (IH ltac:(lia)) as [I1 I2].
  assert (Hc : cut E n k = fst (de_dec E (de_size E) n k)).
  { destruct HE as (Hs & Hd & _). destruct (Hd (de_size E) n Hs Hn) as (D0 & _ & _ & D3). destruct k as [|k]; cbn [cut]; [auto|]. symmetry. apply D3. lia. }
  assert (Hle : (cut E n k <= cut E n (S k))%Z).
  { destruct HE as (Hs & Hd & _). destruct (Hd (de_size E) n Hs Hn) as (_ & _ & D2 & _). cbn [cut]. rewrite Hc. apply D2. lia. }
  split; [lia|]. rewrite seq_S, map_app, concat_app, map_app, I2. cbn [map Nat.add concat]. rewrite app_nil_r.
  rewrite rank_ids by (auto; lia).
  rewrite <- map_app. f_equal. change (Z.to_nat (cut E n k)) with (0 + Z.to_nat (cut E n k))%nat at 2. rewrite <- seq_app. f_equal. lia.
Qed.
Lemma add_ids E call added n : env_ok E -> (0 <= n)%Z ->
  map pid (concat (map (add_on_rank E call added n) (seq 0 (de_size E)))) = map (fun i => (Z.of_nat i + added)%Z) (seq 0 (Z.to_nat n)).
Proof.
  intros HE Hn. destruct (add_ids_k E call added n (de_size E) HE Hn ltac:(lia)) as [_ H]. rewrite H. f_equal. f_equal.
  destruct HE as (Hs & Hd & _). destruct (Hd (de_size E) n Hs Hn) as (_ & D1 & _). assert (Ec : cut E n (S (de_size E - 1)) = n) by (cbn [cut]; exact D1). replace (S (de_size E - 1)) with (de_size E) in Ec by lia. rewrite Ec. reflexivity.
Qed.
Lemma pid_pbc f l : map pid (map (periodic_bc f) l) = map pid l.
Proof. rewrite map_map. apply map_ext. reflexivity. Qed.
Lemma add_in E call added n p : In p (concat (map (add_on_rank E call added n) (seq 0 (de_size E)))) -> np_w p = Some (sp_weight (de_P E)) /\
  exists x, np_pos p = new_pos E x.
Proof.
  intros H. apply in_concat in H as (l & Hl & Hp). apply in_map_iff in Hl as (r & <- & _). unfold add_on_rank in Hp.
  destruct (de_dec E (de_size E) n r) as [a b]. destruct (0 <? b - a)%Z; [|contradiction]. apply in_map_iff in Hp as ([i [x v]] & <- & _). cbn. eauto.
Qed.
Lemma dr_add_ids E prop s : env_ok E -> 0 <= prop ->
  map pid (ps_parts (dr_add E prop s)) = map pid (ps_parts s) ++ map (fun i => (Z.of_nat i + ps_added s)%Z) (seq 0 (Z.to_nat (num_to_add E prop))) /\
  ps_added (dr_add E prop s) = (ps_added s + num_to_add E prop)%Z /\ (0 <= num_to_add E prop)%Z.
Proof.
  intros HE Hp. assert (Hn : (0 <= num_to_add E prop)%Z).
  { apply round_nonneg. apply Rmult_le_pos; [exact Hp|]. apply IZR_le. apply HE. }
  unfold dr_add. cbn [ps_parts ps_added]. rewrite pid_pbc, map_app, add_ids by auto. auto.
Qed.
Lemma num_one E : num_to_add E 1 = de_num E.
Proof. unfold num_to_add. rewrite Rmult_1_l. apply round_IZR. Qed.

(** ** Substeps keep the identifiers or mark *)
Definition kept (p q : npart) : Prop := pid q = pid p \/ pid q = particle_remove_key.
Lemma kept_trans a b c : Forall2 kept a b -> Forall2 kept b c -> Forall2 kept a c.
Proof.
  intros H. revert c. induction H as [|x y a b H1 H2 IH]; intros c H3; inversion H3; subst; constructor; auto.
  unfold kept in *. destruct H4 as [E|E]; [rewrite E; exact H1|right; exact E].
Qed.
Lemma kept_refl a : Forall2 kept a a.
Proof. induction a; constructor; auto. now left. Qed.
Lemma ionise_dr_id P T nb n dt p : pid (ionise_dr P T nb n dt p) = pid p \/ pid (ionise_dr P T nb n dt p) = particle_remove_key.
Proof. unfold ionise_dr, pid. cbn. destruct (match _ with Some _ => _ | None => _ end); auto. Qed.
Lemma euler_dr_same dt p : np_id (euler_dr dt p) = np_id p /\ np_w (euler_dr dt p) = np_w p.
Proof. unfold euler_dr. destruct (np_pos p) as [[? ?] ?], (np_vel p) as [[? ?] ?]. split; reflexivity. Qed.
Lemma substep_kept E nf d s s' : substep_dr E nf d s = Some s' -> Forall2 kept (ps_parts s) (ps_parts s') /\ ps_added s' = ps_added s /\ ps_calls s' = ps_calls s.
Proof.
  unfold substep_dr. intros [= <-]. cbn [ps_parts ps_added ps_calls]. split; [|auto]. induction (ps_parts s) as [|p l IH]; cbn [map]; constructor; auto.
  unfold kept. set (q := periodic_bc _ _). assert (Eq : pid q = pid p) by (unfold q, pid, periodic_bc; cbn; now destruct (euler_dr_same d p) as [-> _]).
  rewrite <- Eq. apply ionise_dr_id.
Qed.
Lemma loop_kept E nf time_end dt : forall fuel t s s', int_loop (substep_dr E nf) fuel time_end dt t s = IOk s' ->
  Forall2 kept (ps_parts s) (ps_parts s') /\ ps_added s' = ps_added s.
Proof.
  induction fuel as [|k IH]; intros t s s'; [discriminate|]. cbn [int_loop]. destruct (Rlt_bool t time_end).
  - cbv zeta. destruct (substep_dr E nf (fmin dt (time_end - t)) s) as [s1|] eqn:E1; [|discriminate]. intros H.
    destruct (substep_kept _ _ _ _ _ E1) as (K1 & A1 & _). destruct (IH _ _ _ H) as [K2 A2]. split; [eapply kept_trans; eauto|congruence].
  - intros [= <-]. cbn. split; [apply kept_refl|reflexivity].
Qed.
(** Identifiers of the unmarked: distinct, and among the earlier ones. *)
Lemma kept_unmarked a b : Forall2 kept a b -> NoDup (map pid a) ->
  NoDup (map pid (remove_marked b)) /\ forall i, In i (map pid (remove_marked b)) -> In i (map pid a).
Proof.
  induction 1 as [|x y a b H1 H2 IH]; [intros _; split; [constructor|auto]|]. cbn [map]. intros HN. inversion HN as [|? ? Hni HN']; subst.
  destruct (IH HN') as [I1 I2]. unfold remove_marked. cbn [filter]. unfold marked at 1 4. destruct H1 as [E|E].
  - destruct (Z.eqb (fst (np_id y)) particle_remove_key) eqn:Em; cbn [negb].
    + split; [exact I1|]. intros i Hi. right. apply I2. exact Hi.
    + cbn [map]. split; [constructor; [rewrite E; intro Hi; apply Hni; apply I2; exact Hi|exact I1]|]. intros i [<-|Hi]; [left; auto|right; apply I2; exact Hi].
  - unfold pid in E. rewrite E, Z.eqb_refl. cbn [negb]. split; [exact I1|]. intros i Hi. right. apply I2. exact Hi.
Qed.

(** ** Ionising a list *)
Lemma ionise_dr_list E nf dt l : phys_ok E nf -> 0 < dt -> (forall p, In p l -> good_weight p /\ (0 <= fst (np_id p))%Z) ->
  let l' := map (fun p => ionise_dr (de_P E) (de_TeV E) (de_nbg E) (nf (np_pos p)) dt p) l in
  exists rho, dsum np_sd l' = Some rho /\ total_weight l = total_weight (remove_marked l') + dt * sp_n_to_SI (de_P E) * rho /\
    (forall p, In p (remove_marked l') -> good_weight p /\ (0 <= fst (np_id p))%Z).
Proof.
  intros (HP1 & HP2 & HP3 & HT & HF) Hdt Hg. set (h := fun p => ionise_dr (de_P E) (de_TeV E) (de_nbg E) (nf (np_pos p)) dt p). cbv zeta. fold h.
  set (P := de_P E) in *. set (sd := fun p => match np_sd p with Some x => x | None => 0 end).
  assert (Hs : forall p, In p l -> exists w w' s, np_w p = Some w /\ 0 <= w /\ np_w (h p) = Some w' /\ 0 <= w' /\ np_sd (h p) = Some s /\ s * dt * sp_n_to_SI P = w - w' /\
    (marked (h p) = true -> w' = 0) /\ (marked (h p) = false -> (0 <= fst (np_id (h p)))%Z)).
  { intros p Hp. destruct (Hg p Hp) as [(w & Ew & Hw) Hid].
    destruct (ionise_dr_spec P (de_TeV E) (de_nbg E) (nf (np_pos p)) dt p w HP1 HP2 HT (HF (np_pos p)) Hdt Ew Hw) as (r & _ & _ & H). cbv zeta in H. fold (h p) in H.
    set (w' := Rmax 0 _) in H. destruct H as (E1 & (s & E2 & E3) & _ & _ & _ & H0 & H1).
    assert (Hw' : 0 <= w') by apply Rmax_l. exists w, w', s.
    split; [exact Ew|]. split; [exact Hw|]. split; [exact E1|]. split; [exact Hw'|]. split; [exact E2|]. split; [exact E3|].
    unfold marked, particle_remove_key in *. destruct (Rle_lt_or_eq_dec 0 w' Hw') as [Hpos|Hz].
    - rewrite (H1 Hpos). split; intros Hm; [apply Z.eqb_eq in Hm; lia|exact Hid].
    - rewrite (H0 (eq_sym Hz)). split; intros Hm; [auto|discriminate Hm]. }
  assert (Hrho : dsum np_sd (map h l) = Some (rsum_list (map sd (map h l)))).
  { apply dsum_some. intros q Hq. apply in_map_iff in Hq as (p & <- & Hp). destruct (Hs p Hp) as (w & w' & s & _ & _ & _ & _ & Es & _). unfold sd. now rewrite Es. }
  exists (rsum_list (map sd (map h l))). split; [exact Hrho|]. split.
  - transitivity (total_weight (map h l) + dt * sp_n_to_SI P * rsum_list (map sd (map h l))).
    + clear Hg Hrho. induction l as [|p l IH]; [unfold total_weight, rsum_list; simpl; ring|].
      destruct (Hs p (or_introl eq_refl)) as (w & w' & s & E1 & _ & E2 & _ & E3 & E4 & _).
      change (total_weight (p :: l)) with (wt p + total_weight l). cbn [map]. change (total_weight (h p :: map h l)) with (wt (h p) + total_weight (map h l)).
      rewrite IH by (intros; apply Hs; now right). unfold wt at 1 2. rewrite E1, E2. assert (Esd : sd (h p) = s) by (unfold sd; now rewrite E3). unfold rsum_list. cbn [map fold_right]. rewrite Esd. nra.
    + f_equal. rewrite (total_filter (fun p => negb (marked p))). unfold remove_marked.
      rewrite (total_zero (filter (fun p => negb (negb (marked p))) (map h l))); [ring|].
      intros q Hq. apply filter_In in Hq as [Hq Hm]. rewrite negb_involutive in Hm. apply in_map_iff in Hq as (p & <- & Hp).
      destruct (Hs p Hp) as (w & w' & s & _ & _ & E2 & _ & _ & _ & Hz & _). unfold wt. rewrite E2. auto.
  - intros q Hq. unfold remove_marked in Hq. apply filter_In in Hq as [Hq Hm]. apply negb_true_iff in Hm. apply in_map_iff in Hq as (p & <- & Hp).
    destruct (Hs p Hp) as (w & w' & s & _ & _ & E2 & Hw' & _ & _ & _ & Hi). split; [exists w'; auto|auto].
Qed.

(** the state after the first addition *)
Definition filled (E : drenv) (s : psys) : psys := if Z.eqb (ps_added s) 0 then dr_add E 1 s else s.
Lemma filled_good E s : env_ok E -> 0 <= sp_weight (de_P E) -> good_state s -> good_state (filled E s) /\ ps_time (filled E s) = ps_time s.
Proof.
  intros HE Hw Hg. unfold filled. destruct (Z.eqb_spec (ps_added s) 0) as [H0|]; [|auto]. split; [|reflexivity].
  intros p Hp. cbn [dr_add ps_parts] in Hp. apply in_map_iff in Hp as (q & <- & Hq). unfold good_weight. cbn [periodic_bc np_w np_id].
  apply in_app_or in Hq as [Hq|Hq]; [exact (Hg q Hq)|]. destruct (add_in _ _ _ _ _ Hq) as [Ew _]. split; [eauto|].
  assert (Hi : In (pid q) (map pid (concat (map (add_on_rank E (ps_calls s) (ps_added s) (num_to_add E 1)) (seq 0 (de_size E)))))) by (now apply in_map).
  rewrite add_ids in Hi by (auto; rewrite num_one; apply HE). apply in_map_iff in Hi as (i & Hi & _). unfold pid in Hi. rewrite <- Hi. lia.
Qed.
Lemma filled_weight E s : env_ok E -> good_state s ->
  total_weight (ps_parts (filled E s)) = total_weight (ps_parts s) + (IZR (ps_added (filled E s)) - IZR (ps_added s)) * sp_weight (de_P E).
Proof.
  intros HE Hg. unfold filled. destruct (Z.eqb_spec (ps_added s) 0) as [H0|]; [|ring].
  cbn [dr_add ps_parts ps_added]. rewrite (total_map_same (periodic_bc (de_pbc E))) by reflexivity. rewrite total_app. f_equal.
  rewrite plus_IZR, num_one. replace (IZR (ps_added s) + IZR (de_num E) - IZR (ps_added s)) with (IZR (de_num E)) by ring.
  set (new := concat _). assert (Hl : length new = Z.to_nat (de_num E)).
  { rewrite <- (map_length pid). unfold new. rewrite add_ids by (auto; apply HE). rewrite map_length, seq_length. reflexivity. }
  replace (IZR (de_num E)) with (INR (length new)). 2:{ rewrite Hl, INR_IZR_INZ, Z2Nat.id by apply HE. reflexivity. }
  assert (Hw : forall p, In p new -> wt p = sp_weight (de_P E)). { intros p Hp. destruct (add_in _ _ _ _ _ Hp) as [Ew _]. unfold wt. now rewrite Ew. }
  clearbody new. clear - Hw. induction new as [|p l IH]; [unfold total_weight; simpl; ring|]. change (total_weight (p :: l)) with (wt p + total_weight l). cbn [length]. rewrite S_INR, (Hw p) by (now left). rewrite IH by (intros; apply Hw; now right). ring.
Qed.
Lemma filled_added E s : env_ok E -> ps_added s = 0%Z \/ ps_added s = de_num E -> ps_added (filled E s) = de_num E.
Proof.
  intros HE H. unfold filled. destruct (Z.eqb_spec (ps_added s) 0) as [H0|H0]; [|destruct H; [contradiction|auto]].
  cbn [dr_add ps_added]. rewrite num_one, H0. lia.
Qed.

Lemma pre_cases E nf fuel t dt k s src s' : (0 < k)%Z -> dr_pre E nf fuel t dt k s = Some (src, s') ->
  (s' = {| ps_time := ps_time s; ps_calls := ps_calls s; ps_added := ps_added s; ps_parts := remove_marked (ps_parts s) |} /\
    dsum np_sd (ps_parts s) = src /\ (t + dt = ps_time s \/ de_num E = 0%Z)) \/
  (de_periodic E = true /\ de_num E <> 0%Z /\ ps_time s < t + dt /\ exists s1, int_loop (substep_dr E nf) fuel (t + dt) (dt / IZR k) (ps_time s) (filled E s) = IOk s1 /\
    dsum np_sd (ps_parts s1) = src /\
    s' = {| ps_time := ps_time s1; ps_calls := ps_calls s1; ps_added := ps_added s1; ps_parts := remove_marked (ps_parts s1) |}).
Proof.
  intros Hk. unfold dr_pre. rewrite rdiv_ok by (apply not_eq_sym; apply Rlt_not_eq; apply IZR_lt; exact Hk). cbn [bind]. unfold integrate_dr.
  destruct (Rlt_bool_spec (t + dt) (ps_time s)) as [|Hle]; [discriminate|]. destruct (Req_bool_spec (t + dt) (ps_time s)) as [He|He]; cbn [orb].
  { destruct (dsum np_sd (ps_parts s)) eqn:Ed; [|discriminate]. intros [= <- <-]. left. auto. }
  destruct (Z.eqb_spec (de_num E) 0) as [Hz|Hz].
  { destruct (dsum np_sd (ps_parts s)) eqn:Ed; [|discriminate]. intros [= <- <-]. left. auto. }
  destruct (de_periodic E); cbn [negb]; [|discriminate]. fold (filled E s).
  fold (filled E s). destruct (int_loop _ _ _ _ _ _) as [| | |s1] eqn:El; try discriminate.
  destruct (dsum np_sd (ps_parts s1)) eqn:Ed; [|discriminate]. intros [= <- <-]. right. split; [reflexivity|]. split; [exact Hz|]. split; [lra|]. exists s1.
  assert (Et : ps_time (filled E s) = ps_time s) by (unfold filled; destruct (Z.eqb (ps_added s) 0); reflexivity). rewrite Et in El. auto.
Qed.

(** ** The invariants *)
Definition dr_inv (E : drenv) (s : psys) : Prop := (ps_added s = 0%Z \/ ps_added s = de_num E) /\ NoDup (map pid (ps_parts s)) /\
  (forall i, In i (map pid (ps_parts s)) -> (0 <= i < de_num E)%Z) /\ (ps_added s = 0%Z -> ps_parts s = []).
Lemma kept_refl_inv E l : NoDup (map pid l) -> (forall i, In i (map pid l) -> (0 <= i < de_num E)%Z) -> NoDup (map pid (remove_marked l)) /\ forall i, In i (map pid (remove_marked l)) -> (0 <= i < de_num E)%Z.
Proof. intros H1 H2. destruct (kept_unmarked l l (kept_refl l) H1) as [A B]. split; [exact A|]. intros i Hi. apply H2, B, Hi. Qed.
Lemma run_inv E s : env_ok E -> dr_run E s -> dr_inv E s.
Proof.
  intros HE. induction 1 as [|s nf fuel t dt k src s' H IH HF Hd Hk Hpre].
  { repeat split; cbn; try (now left); try constructor; try contradiction. }
  destruct IH as (I1 & I2 & I3 & I4). destruct (pre_cases _ _ _ _ _ _ _ _ _ Hk Hpre) as [(-> & _ & _)|(_ & Hnz & _ & s1 & El & _ & ->)].
  - destruct (kept_refl_inv E _ I2 I3) as [A B]. split; [exact I1|]. split; [exact A|]. split; [exact B|]. cbn. intros H0. rewrite I4 by auto. reflexivity.
  - destruct (loop_kept _ _ _ _ _ _ _ _ El) as [K A1]. rewrite (filled_added E s HE I1) in A1. cbn [ps_added ps_parts].
    assert (J : NoDup (map pid (ps_parts (filled E s))) /\ forall i, In i (map pid (ps_parts (filled E s))) -> (0 <= i < de_num E)%Z).
    { unfold filled. destruct (Z.eqb_spec (ps_added s) 0) as [H0|H0]; [|auto]. destruct (dr_add_ids E 1 s HE ltac:(lra)) as [E1 _].
      rewrite E1, (I4 H0), H0, num_one. cbn [map app]. split.
      - apply Injective_map_NoDup; [intros a b Hab; lia|apply seq_NoDup].
      - intros i Hi. apply in_map_iff in Hi as (j & <- & Hj). apply in_seq in Hj. destruct HE as (_ & _ & _ & Hn). lia. }
    destruct J as [J1 J2]. destruct (kept_unmarked _ _ K J1) as [B1 B2]. split; [right; exact A1|]. split; [exact B1|].
    split; [intros i Hi; apply J2, B2, Hi|]. intros Hz. exfalso. apply Hnz. rewrite <- A1. exact Hz.
Qed.

(** ** One substep: the mass balance *)
Lemma pre_one_dr E nf fuel dt s src s' : env_ok E -> phys_ok E nf -> 0 < dt -> good_state s -> de_num E <> 0%Z ->
  dr_pre E nf fuel (ps_time s) dt 1 s = Some (src, s') ->
  exists rho, src = Some rho /\ ps_time s' = ps_time s + dt /\ good_state s' /\ ps_added s' = ps_added (filled E s) /\
    total_weight (ps_parts s) + (IZR (ps_added s') - IZR (ps_added s)) * sp_weight (de_P E) = total_weight (ps_parts s') + dt * sp_n_to_SI (de_P E) * rho.
Proof.
  intros HE HF Hd Hg Hnz Hpre. destruct (pre_cases E nf fuel (ps_time s) dt 1 s src s' ltac:(lia) Hpre) as [(_ & _ & [H|H])|(_ & _ & _ & s1 & El & Es & ->)]; [lra|contradiction|].
  replace (dt / 1) with dt in El by field. apply int_loop_one in El as (s0 & E0 & ->); auto. unfold substep_dr in E0. injection E0 as <-.
  cbn [at_time ps_parts ps_time ps_added] in *. assert (Hw : 0 <= sp_weight (de_P E)) by apply HF.
  destruct (filled_good E s HE Hw Hg) as [Gf _]. set (l := map (periodic_bc (de_pbc E)) (map (euler_dr dt) (ps_parts (filled E s)))) in *.
  assert (Hl : forall p, In p l -> good_weight p /\ (0 <= fst (np_id p))%Z).
  { intros p Hp. unfold l in Hp. rewrite map_map in Hp. apply in_map_iff in Hp as (q & <- & Hq). unfold good_weight, periodic_bc. cbn [np_w np_id].
    destruct (euler_dr_same dt q) as [-> ->]. exact (Gf q Hq). }
  destruct (ionise_dr_list E nf dt l HF Hd Hl) as (rho & Er & Eb & Hg'). rewrite Er in Es. exists rho. split; [auto|]. split; [reflexivity|]. split; [exact Hg'|]. split; [reflexivity|].
  assert (El : total_weight l = total_weight (ps_parts (filled E s))).
  { unfold l. rewrite (total_map_same (periodic_bc (de_pbc E))) by reflexivity. apply total_map_same. intros p. unfold wt. now destruct (euler_dr_same dt p) as [_ ->]. }
  rewrite <- filled_weight by auto. rewrite <- El. exact Eb.
Qed.
Lemma dr_history_balance E dt M0 s M : env_ok E -> 0 < dt -> de_num E <> 0%Z -> dr_history E dt M0 s M -> good_state s /\
  total_weight (ps_parts s) + M - added_mass (de_P E) (ps_added s) = M0.
Proof.
  intros HE Hd Hn H. induction H as [|s M nf fuel rho s' H [IHg IH] HF Hpre].
  { split; [intros p []|]. unfold total_weight, rsum_list, added_mass. cbn. ring. }
  destruct (pre_one_dr _ _ _ _ _ _ _ HE HF Hd IHg Hn Hpre) as (rho' & Er & _ & Hg' & _ & Eb). injection Er as <-. split; [exact Hg'|]. rewrite <- IH. unfold added_mass in *. lra.
Qed.
Lemma dr_history_error E dt M0 s M : env_ok E -> 0 < dt -> de_num E <> 0%Z -> dr_history E dt M0 s M ->
  added_mass (de_P E) (ps_added s) + M0 <> 0 -> mass_error (de_P E) M0 M s = Some 0.
Proof.
  intros HE Hd Hn H Hc. destruct (dr_history_balance _ _ _ _ _ HE Hd Hn H) as [Hg' Eb]. unfold mass_error. rewrite mass_of by auto. cbn [bind].
  replace (added_mass (de_P E) (ps_added s) + M0 - (total_weight (ps_parts s) + M)) with 0 by lra. rewrite Rabs_R0, rdiv_ok by (now apply Rabs_no_R0).
  f_equal. unfold Rdiv. apply Rmult_0_l.
Qed.
Lemma pre_defined_dr E nf dt s : env_ok E -> phys_ok E nf -> 0 < dt -> good_state s -> de_num E <> 0%Z -> de_periodic E = true ->
  exists src s', dr_pre E nf 2 (ps_time s) dt 1 s = Some (src, s').
Proof.
  intros HE HF Hd Hg Hn Hper. assert (Hw : 0 <= sp_weight (de_P E)) by apply HF. destruct (filled_good E s HE Hw Hg) as [Gf Ef].
  unfold dr_pre. rewrite rdiv_ok by lra. cbn [bind]. replace (dt / 1) with dt by field. unfold integrate_dr.
  rewrite Rlt_bool_false, Req_bool_false by lra. cbn [orb]. destruct (Z.eqb_spec (de_num E) 0); [contradiction|]. rewrite Hper. cbn [negb]. fold (filled E s).
  rewrite Ef. cbn [int_loop]. rewrite Rlt_bool_true by lra. cbv zeta. rewrite fmin_Rmin, Rmin_left by lra. unfold substep_dr at 1. rewrite Rlt_bool_false by lra.
  cbn [ps_parts ps_time ps_calls ps_added]. set (l := map (periodic_bc (de_pbc E)) (map (euler_dr dt) (ps_parts (filled E s)))) in *.
  assert (Hl : forall p, In p l -> good_weight p /\ (0 <= fst (np_id p))%Z).
  { intros p Hp. unfold l in Hp. rewrite map_map in Hp. apply in_map_iff in Hp as (q & <- & Hq). unfold good_weight, periodic_bc. cbn [np_w np_id].
    destruct (euler_dr_same dt q) as [-> ->]. exact (Gf q Hq). }
  destruct (ionise_dr_list E nf dt l HF Hd Hl) as (rho & Er & _). rewrite Er. eauto.
Qed.

(** ** A concrete system: get_decomp_1d as in NESO-Particles, one particle on two ranks *)
Definition std_decomp (size : nat) (n : Z) (r : nat) : Z * Z :=
  let q := (n / Z.of_nat size)%Z in let m := (n mod Z.of_nat size)%Z in
  let st := fun k : nat => (Z.of_nat k * q + Z.min (Z.of_nat k) m)%Z in (st r, st (S r)).
Lemma std_decomp_ok : decomp_ok std_decomp.
Proof.
  intros size n Hs Hn. unfold std_decomp. cbn [fst snd]. pose proof (Z.div_mod n (Z.of_nat size) ltac:(lia)). pose proof (Z.mod_pos_bound n (Z.of_nat size) ltac:(lia)). pose proof (Z.div_pos n (Z.of_nat size) Hn ltac:(lia)).
  set (q := (n / Z.of_nat size)%Z) in *. set (m := (n mod Z.of_nat size)%Z) in *. split; [lia|]. split.
  - replace (S (size - 1)) with size by lia. rewrite Z.min_r by lia. lia.
  - split; [intros r Hr; rewrite Nat2Z.inj_succ; nia|reflexivity].
Qed.
Definition dE : drenv := {| de_P := wP 0; de_TeV := 1; de_nbg := 0; de_num := 1; de_size := 2; de_dec := std_decomp;
  de_draw := fun _ _ n => repeat ((0, 0, 0), (1, 0, 0)) (Z.to_nat n); de_dim := 3; de_org := (0, 0, 0); de_ext := (2, 2, 2); de_periodic := true; de_pbc := fun x => x |}.
Definition dnf (r : R) : R * R * R -> R := fun _ => 2 / r.
Lemma dE_ok : env_ok dE.
Proof. split; [cbn; lia|]. split; [apply std_decomp_ok|]. split; [|cbn; lia]. intros c r n Hn. cbn. apply repeat_length. Qed.
Lemma dnf_ok r : 0 < r -> phys_ok dE (dnf r).
Proof.
  intros Hr. unfold phys_ok, dE, wP, dnf. cbn. assert (0 < / r) by (now apply Rinv_0_lt_compat). repeat split; try lra; intros; lra.
Qed.
Lemma dE_add : ps_parts (dr_add dE 1 no_particles) = [mkNp (0 + 0, 0 + 0, 0 + (2 - 0) / 2) (1, 0, 0) (0%Z, 0%Z) (Some 1) (Some 0) (Some 0, Some 0) (Some 0)].
Proof.
  unfold dr_add. cbn [ps_parts no_particles app ps_calls ps_added]. rewrite num_one. reflexivity.
Qed.
Lemma d_substep r p w : 0 < r -> ion_rate 1 = Some r -> (w = 1 \/ w = 0) -> np_w p = Some w ->
  let q := ionise_dr (wP 0) 1 0 (2 / r) (1/2) p in np_w q = Some 0 /\ marked q = true /\ np_sd q = Some (2 * w).
Proof.
  intros Hr Er Hw Ew. cbv zeta. assert (Hri : 0 < / r) by (now apply Rinv_0_lt_compat).
  destruct (ionise_dr_spec (wP 0) 1 0 (2 / r) (1/2) p w ltac:(cbn; lra) ltac:(cbn; lra) ltac:(lra) ltac:(cbn; lra) ltac:(lra) Ew ltac:(lra)) as (r' & Er' & _ & H).
  cbv zeta in H. rewrite Er in Er'. injection Er' as <-. cbn [sp_n_to_SI sp_t_to_SI wP] in H.
  replace (w * (1 - r * (1 / 2 * 1) * (0 + 2 / r * 1))) with 0 in H by (field; lra). rewrite Rmax_left in H by lra.
  destruct H as (E1 & (sd & E2 & E3) & _ & _ & _ & E6 & _). split; [exact E1|]. split; [unfold marked; rewrite E6 by auto; reflexivity|]. rewrite E2. f_equal. lra.
Qed.
Lemma dr_two_substeps : exists nf s', phys_ok dE nf /\ dr_pre dE nf 3 0 1 2 no_particles = Some (Some 0, s') /\
  ps_added s' = 1%Z /\ ps_parts s' = [] /\ mass_error (de_P dE) 0 (0 + 1 * 1 * 0) s' = Some 1.
Proof.
  destruct (rate_pos 1 ltac:(lra)) as (r & Er & Hr). exists (dnf r). eexists. split; [now apply dnf_ok|].
  assert (Hadd : ps_time (dr_add dE 1 no_particles) = 0 /\ ps_added (dr_add dE 1 no_particles) = 1%Z) by (cbn [dr_add ps_time ps_added no_particles]; rewrite num_one; auto). destruct Hadd as [At Aa].
  assert (Hpre : dr_pre dE (dnf r) 3 0 1 2 no_particles = Some (Some 0, {| ps_time := 0 + 1; ps_calls := 1; ps_added := 1; ps_parts := [] |})).
  { unfold dr_pre. rewrite rdiv_ok by lra. cbn [bind]. unfold integrate_dr. change (ps_time no_particles) with 0. rewrite Rlt_bool_false, Req_bool_false by lra.
    change (de_num dE =? 0)%Z with false. change (de_periodic dE) with true. cbn [orb negb]. change (ps_added no_particles =? 0)%Z with true. cbv iota zeta. rewrite At. cbn [int_loop].
    rewrite Rlt_bool_true by lra. cbv zeta. rewrite fmin_Rmin, Rmin_left by lra. unfold substep_dr at 1. rewrite dE_add.
    cbn [map de_pbc dE de_P de_TeV de_nbg]. set (p0 := periodic_bc _ _). change (dnf r (np_pos p0)) with (2 / r).
    destruct (d_substep r p0 1 Hr Er (or_introl eq_refl) eq_refl) as (W1 & _ & _). set (q := ionise_dr (wP 0) 1 0 (2 / r) (1/2) p0) in *. clearbody q.
    rewrite Rlt_bool_true by lra. rewrite fmin_Rmin, Rmin_left by lra. unfold substep_dr at 1. cbn [map ps_parts de_pbc dE de_P de_TeV de_nbg]. set (p1 := periodic_bc _ _). change (dnf r (np_pos p1)) with (2 / r).
    assert (Ep : np_w p1 = Some 0) by (unfold p1, periodic_bc; cbn [np_w]; destruct (euler_dr_same (1/2) q) as [_ ->]; exact W1).
    destruct (d_substep r p1 0 Hr Er (or_intror eq_refl) Ep) as (W2 & M2 & D2). set (q2 := ionise_dr (wP 0) 1 0 (2 / r) (1/2) p1) in *. clearbody q2.
    rewrite Rlt_bool_false by lra. cbn [ps_parts ps_time ps_calls ps_added]. unfold dsum. cbn [fold_left]. rewrite D2. cbn [d2 bind]. unfold remove_marked. cbn [filter]. rewrite M2. cbn [negb]. rewrite Aa.
    replace (0 + 2 * 0) with 0 by ring. reflexivity. }
  split; [exact Hpre|]. split; [reflexivity|]. split; [reflexivity|]. unfold mass_error, particle_mass, dsum, added_mass. cbn [ps_parts fold_left bind ps_added]. rewrite rdiv_ok; cbn [de_P dE sp_weight wP].
  - f_equal. replace (1 * 1 + 0 - (0 + (0 + 1 * 1 * 0))) with 1 by ring. replace (1 * 1 + 0) with 1 by ring. rewrite Rabs_R1. field.
  - replace (1 * 1 + 0) with 1 by ring. rewrite Rabs_R1. lra.
Qed.
