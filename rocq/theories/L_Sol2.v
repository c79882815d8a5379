(** Lemmas for C67-C70: the ionisation kernel, the substep loop, mass exchange. *)
From Verif Require Import M_Sol S_Sol L_RealBase L_Coord L_Sol.
From Coq Require Import Lra Lia Psatz List.
Import ListNotations.

(** ** One particle *)
Lemma ionise_sol_spec P n T dt p w : params_ok P -> 0 < T -> 0 <= n -> 0 < dt -> np_w p = Some w -> 0 <= w ->
  exists r, ion_rate (T * sp_T_to_eV P) = Some r /\ 0 < r /\
  let w' := Rmax 0 (w * (1 - r * (dt * sp_t_to_SI P) * (n * sp_n_to_SI P))) in
  let v_s := fst (fst (np_vel p)) * cos (sp_theta P) + snd (fst (np_vel p)) * sin (sp_theta P) in
  let p' := ionise_sol P n T dt p in
  np_w p' = Some w' /\ (exists sd, np_sd p' = Some sd /\ sd * dt * sp_n_to_SI P = w - w' /\
     np_sm p' = (Some (sd * v_s * cos (sp_theta P)), Some (sd * v_s * sin (sp_theta P))) /\ np_se p' = Some (sd * v_s * v_s * (1/2))) /\
  np_pos p' = np_pos p /\ np_vel p' = np_vel p /\ snd (np_id p') = snd (np_id p) /\
  (w' = 0 -> fst (np_id p') = particle_remove_key) /\ (0 < w' -> fst (np_id p') = fst (np_id p)).
Proof.
  intros (HN & HT & Ht & _) HT' Hn Hdt Hw Hw0. destruct (rate_pos (T * sp_T_to_eV P)) as (r & Er & Hr); [nra|].
  exists r. split; auto. split; auto. destruct (np_vel p) as [[v0 v1] v2] eqn:Ev. cbv zeta. unfold ionise_sol. rewrite Er, Hw, Ev.
  rewrite rdiv_ok by lra. cbn [d2 dneg bind fst snd np_w np_sd np_sm np_se np_pos np_vel np_id].
  set (c := r * (dt * sp_t_to_SI P) * (n * sp_n_to_SI P)).
  replace (w + - r * w * (dt * sp_t_to_SI P) * (n * sp_n_to_SI P)) with (w * (1 - c)) by (unfold c; ring).
  set (nn := n * sp_n_to_SI P) in *.
  case Rle_bool_spec; intros H.
  - rewrite Rmax_left by lra. cbn [d2 dneg bind ddiv]. rewrite rdiv_ok by lra. cbn [d2 bind].
    split; [f_equal; ring|]. split; [eexists; split; [reflexivity|]; split; [field; lra|split; reflexivity]|]. repeat split; auto; lra.
  - rewrite Rmax_right by lra. cbn [d2 dneg bind ddiv]. rewrite rdiv_ok by lra. cbn [d2 bind].
    split; [f_equal; unfold c, nn; ring|]. split; [eexists; split; [reflexivity|]; split; [unfold c, nn; field; lra|split; reflexivity]|].
    repeat split; auto; lra.
Qed.
Lemma ionise_sol_nan P n T dt p w : T * sp_T_to_eV P <= 0 -> np_w p = Some w ->
  let p' := ionise_sol P n T dt p in np_w p' = None /\ np_sd p' = None /\ np_id p' = np_id p.
Proof.
  intros HT Hw. unfold ionise_sol. rewrite (rate_nonpos _ HT), Hw. destruct (np_vel p) as [[v0 v1] v2].
  cbn [d2 dneg bind ddiv np_w np_sd np_id]. destruct (np_id p). auto.
Qed.
Lemma ionise_dr_spec P TeV nbg n dt p w : 0 < sp_n_to_SI P -> 0 < sp_t_to_SI P -> 0 < TeV -> 0 <= nbg + n * sp_n_to_SI P -> 0 < dt -> np_w p = Some w -> 0 <= w ->
  exists r, ion_rate TeV = Some r /\ 0 < r /\
  let w' := Rmax 0 (w * (1 - r * (dt * sp_t_to_SI P) * (nbg + n * sp_n_to_SI P))) in
  let p' := ionise_dr P TeV nbg n dt p in
  np_w p' = Some w' /\ (exists sd, np_sd p' = Some sd /\ sd * dt * sp_n_to_SI P = w - w') /\
  np_pos p' = np_pos p /\ np_vel p' = np_vel p /\ snd (np_id p') = snd (np_id p) /\
  (w' = 0 -> fst (np_id p') = particle_remove_key) /\ (0 < w' -> fst (np_id p') = fst (np_id p)).
Proof.
  intros HN Ht HT Hn Hdt Hw Hw0. destruct (rate_pos TeV HT) as (r & Er & Hr).
  exists r. split; auto. split; auto. cbv zeta. unfold ionise_dr. rewrite Er, Hw.
  rewrite rdiv_ok by lra. cbn [d2 dneg bind fst snd np_w np_sd np_sm np_se np_pos np_vel np_id].
  set (nn := nbg + n * sp_n_to_SI P) in *. set (c := r * (dt * sp_t_to_SI P) * nn).
  replace (w + - r * w * (dt * sp_t_to_SI P) * nn) with (w * (1 - c)) by (unfold c; ring).
  case Rle_bool_spec; intros H.
  - rewrite Rmax_left by lra. cbn [d2 dneg bind ddiv]. rewrite rdiv_ok by lra.
    split; [f_equal; ring|]. split; [eexists; split; [reflexivity|]; field; lra|]. repeat split; auto; lra.
  - rewrite Rmax_right by lra. cbn [d2 dneg bind ddiv]. rewrite rdiv_ok by lra.
    split; [f_equal; unfold c; ring|]. split; [eexists; split; [reflexivity|]; unfold c; field; lra|].
    repeat split; auto; lra.
Qed.

(** ** The loop *)
Lemma full_steps_pos t t1 dt : 0 < dt -> t < t1 -> 0 < t1 - t - INR (full_steps t t1 dt) * dt <= dt.
Proof.
  intros Hdt Ht. unfold full_steps. set (q := (t1 - t) / dt). assert (Hq : 0 < q) by (unfold q; apply Rdiv_lt_0_compat; lra).
  assert (E : t1 - t = q * dt) by (unfold q; field; lra). rewrite E.
  assert (Hc : (1 <= Zceil q)%Z) by (assert (0 < Zceil q)%Z; [apply lt_IZR; eapply Rlt_le_trans; [exact Hq|apply Zceil_ub]|lia]).
  rewrite INR_IZR_INZ, Z2Nat.id, minus_IZR by lia. pose proof (Zceil_ub q). pose proof (Zceil_lb q). clearbody q. split; nra.
Qed.
Lemma rsum_app a b : rsum_list (a ++ b) = rsum_list a + rsum_list b.
Proof. induction a as [|x a IH]; simpl; [ring|]. unfold rsum_list in *. rewrite IH. ring. Qed.
Lemma rsum_repeat d n : rsum_list (repeat d n) = INR n * d.
Proof. induction n as [|n IH]; [simpl; ring|]. cbn [repeat]. rewrite S_INR. unfold rsum_list in *. cbn [fold_right]. rewrite IH. ring. Qed.
Lemma sizes_spec t t1 dt : 0 < dt -> t < t1 ->
  rsum_list (step_sizes t t1 dt) = t1 - t /\ Forall (fun d => 0 < d <= dt) (step_sizes t t1 dt).
Proof.
  intros Hd Ht. pose proof (full_steps_pos t t1 dt Hd Ht) as Hp. unfold step_sizes. split.
  - rewrite rsum_app, rsum_repeat. unfold rsum_list. cbn [fold_right]. ring.
  - apply Forall_app. split; [apply Forall_forall; intros x Hx; apply repeat_spec in Hx; subst; lra|]. constructor; [exact Hp|constructor].
Qed.
Lemma int_loop_run step time_end dt : 0 < dt -> forall fuel t s, t < time_end -> (length (step_sizes t time_end dt) < fuel)%nat ->
  int_loop step fuel time_end dt t s = match run_steps step (step_sizes t time_end dt) s with None => IUB | Some s' => IOk (at_time time_end s') end.
Proof.
  intros Hdt. induction fuel as [|k IH]; intros t s Ht Hf; [lia|]. cbn [int_loop]. rewrite Rlt_bool_true by auto. cbv zeta.
  pose proof (full_steps_pos t time_end dt Hdt Ht) as Hp. destruct (full_steps t time_end dt) as [|m] eqn:Em.
  - (* last step *)
    assert (Hsz : step_sizes t time_end dt = [time_end - t]). { unfold step_sizes. rewrite Em. cbn [repeat app]. f_equal. simpl. ring. }
    rewrite Hsz in *. cbn [run_steps]. cbn [INR] in Hp. rewrite fmin_Rmin, Rmin_right by lra.
    destruct (step (time_end - t) s) as [s'|]; auto. replace (t + (time_end - t)) with time_end by ring.
    destruct k as [|k]; [simpl in Hf; lia|]. cbn [int_loop]. rewrite Rlt_bool_false by lra. reflexivity.
  - assert (Hlt : dt < time_end - t). { rewrite S_INR in Hp. pose proof (pos_INR m). nra. }
    assert (Em' : full_steps (t + dt) time_end dt = m).
    { unfold full_steps in *. replace ((time_end - t) / dt) with (1 + (time_end - (t + dt)) / dt) in Em by (field; lra).
      set (q := (time_end - (t + dt)) / dt) in *. assert (Ec : Zceil (1 + q) = (1 + Zceil q)%Z).
      { apply Zceil_imp. rewrite minus_IZR, plus_IZR. pose proof (Zceil_ub q). pose proof (Zceil_lb q). lra. }
      rewrite Ec in Em. lia. }
    assert (Hsz : step_sizes t time_end dt = dt :: step_sizes (t + dt) time_end dt).
    { unfold step_sizes. rewrite Em, Em'. cbn [repeat app]. f_equal. f_equal. rewrite S_INR. f_equal. ring. }
    rewrite Hsz in *. cbn [run_steps]. rewrite fmin_Rmin, Rmin_left by lra. destruct (step dt s) as [s'|]; auto. apply IH; [lra|cbn [length] in Hf; lia].
Qed.
Lemma integrate_run E F time_end dt s fuel : 0 < dt -> ps_time s < time_end -> (length (step_sizes (ps_time s) time_end dt) < fuel)%nat ->
  integrate_sol E F fuel time_end dt s =
  match run_steps (substep_sol E F dt) (step_sizes (ps_time s) time_end dt) s with None => IUB | Some s' => IOk (at_time time_end s') end.
Proof.
  intros Hd Ht Hf. unfold integrate_sol. rewrite Rlt_bool_false, Req_bool_false by lra. now apply int_loop_run.
Qed.
Lemma int_loop_stuck step time_end dt : dt <= 0 -> forall fuel t s s', t < time_end -> int_loop step fuel time_end dt t s <> IOk s'.
Proof.
  intros Hd. induction fuel as [|k IH]; intros t s s' Ht; [discriminate|]. cbn [int_loop]. rewrite Rlt_bool_true by auto. cbv zeta.
  rewrite fmin_Rmin, Rmin_left by lra. destruct (step dt s) as [s1|]; [|discriminate]. apply IH. lra.
Qed.
Lemma integrate_edges E F fuel time_end dt s :
  (time_end < ps_time s -> integrate_sol E F fuel time_end dt s = IAssert) /\
  (time_end = ps_time s -> integrate_sol E F fuel time_end dt s = IOk s) /\
  (ps_time s < time_end -> dt <= 0 -> forall s', integrate_sol E F fuel time_end dt s <> IOk s').
Proof.
  unfold integrate_sol. split; [intros H; now rewrite Rlt_bool_true|]. split.
  - intros ->. rewrite Rlt_bool_false, Req_bool_true by lra. reflexivity.
  - intros H Hd s'. rewrite Rlt_bool_false, Req_bool_false by lra. now apply int_loop_stuck.
Qed.

(** ** Sums *)
Lemma dsum_some f g : forall l, (forall p, In p l -> f p = Some (g p)) -> dsum f l = Some (rsum_list (map g l)).
Proof.
  unfold dsum. assert (H : forall l a, (forall p, In p l -> f p = Some (g p)) -> fold_left (fun (a : dbl) p => d2 Rplus a (f p)) l (Some a) = Some (a + rsum_list (map g l))).
  { induction l as [|p l IH]; intros a H; cbn [fold_left map]; [unfold rsum_list; simpl; f_equal; ring|].
    rewrite (H p) by (left; auto). cbn [d2 bind]. rewrite IH by (intros; apply H; now right). f_equal. unfold rsum_list. cbn [fold_right]. ring. }
  intros l Hl. rewrite H by auto. f_equal. ring.
Qed.
Lemma total_app a b : total_weight (a ++ b) = total_weight a + total_weight b.
Proof. unfold total_weight. now rewrite map_app, rsum_app. Qed.
Lemma total_filter f l : total_weight l = total_weight (filter f l) + total_weight (filter (fun p => negb (f p)) l).
Proof.
  induction l as [|p l IH]; cbn [filter]; [unfold total_weight; simpl; ring|]. change (p :: l) with ([p] ++ l). rewrite total_app, IH.
  destruct (f p); cbn [negb]; [change (p :: filter f l) with ([p] ++ filter f l)|change (p :: filter (fun p0 => negb (f p0)) l) with ([p] ++ filter (fun p0 => negb (f p0)) l)]; rewrite total_app; ring.
Qed.
Lemma total_zero l : (forall p, In p l -> wt p = 0) -> total_weight l = 0.
Proof. unfold total_weight, rsum_list. induction l as [|p l IH]; intros H; simpl; auto. rewrite (H p) by (left; auto). rewrite IH by (intros; apply H; now right). ring. Qed.
Lemma total_map_same h l : (forall p, In p l -> wt (h p) = wt p) -> total_weight (map h l) = total_weight l.
Proof. intros H. unfold total_weight. f_equal. rewrite map_map. apply map_ext_in. auto. Qed.
