(** Lemmas for C69-C71: mass balance, walls, the particle source. *)
From Verif Require Import M_Sol S_Sol L_RealBase L_Coord L_Sol L_Sol2.
From Coq Require Import Lra Lia Psatz List.
Import ListNotations.

Definition outside (P : sparams) (p : npart) : bool := let '(px, _, _) := np_pos p in Rlt_bool px 0 || Rlt_bool (0 + sp_x_max P) px.
Lemma outside_spec P p : outside P p = true <-> ~ (0 <= fst (fst (np_pos p)) <= sp_x_max P).
Proof.
  unfold outside. destruct (np_pos p) as [[px py] pz]. cbn [fst]. case Rlt_bool_spec; intros H; cbn [orb]; [split; auto; lra|].
  case Rlt_bool_spec; intros H'; split; auto; try discriminate; lra.
Qed.
Lemma wall_mark_eq P p : wall_mark P p = if outside P p then {| np_pos := np_pos p; np_vel := np_vel p; np_id := (particle_remove_key, snd (np_id p)); np_w := np_w p;
          np_sd := np_sd p; np_sm := np_sm p; np_se := np_se p |} else p.
Proof. unfold wall_mark, outside. destruct (np_pos p) as [[px py] pz] eqn:E. reflexivity. Qed.
Lemma wall_bc_eq P l : wall_bc P l = filter (fun p => negb (outside P p) && negb (marked p)) l.
Proof.
  unfold wall_bc, remove_marked. induction l as [|p l IH]; [reflexivity|]. cbn [map filter]. rewrite wall_mark_eq.
  destruct (outside P p); cbn [negb andb]; [unfold marked at 1; cbn [np_id fst]; rewrite Z.eqb_refl; exact IH|]. destruct (negb (marked p)); rewrite IH; reflexivity.
Qed.
Lemma walls_kept P l p : In p (wall_bc P l) <-> In p l /\ 0 <= fst (fst (np_pos p)) <= sp_x_max P /\ fst (np_id p) <> particle_remove_key.
Proof.
  rewrite wall_bc_eq, filter_In. pose proof (outside_spec P p) as H. unfold marked. destruct (outside P p); cbn [negb andb].
  - assert (H1 := proj1 H eq_refl). split; [intros [_ F]; discriminate|intros (_ & F & _); exfalso; lra].
  - assert (H2 : 0 <= fst (fst (np_pos p)) <= sp_x_max P).
    { destruct (Rle_dec 0 (fst (fst (np_pos p)))) as [a|a]; [destruct (Rle_dec (fst (fst (np_pos p))) (sp_x_max P)) as [b|b]|]; [lra| |]; exfalso; assert (false = true) by (apply H; lra); discriminate. }
    rewrite negb_true_iff, Z.eqb_neq. tauto.
Qed.

(** ** Adding *)
Lemma in_new P rank pv p : In p (new_parts P rank pv) -> np_w p = Some (sp_weight P) /\ (0 <= fst (np_id p))%Z.
Proof. unfold new_parts. rewrite in_map_iff. intros ([px [x v]] & <- & _). cbn [np_w np_id fst]. split; auto. lia. Qed.
Lemma in_added P num lines prop draw new p : add_particles P num lines prop draw = Some new -> In p new ->
  np_w p = Some (sp_weight P) /\ (0 <= fst (np_id p))%Z.
Proof.
  unfold add_particles. destruct (per_line prop num lines) as [n|]; [|discriminate]. cbn [bind]. intros E Hin.
  assert (E' := f_equal (fun o => match o with Some x => x | None => [] end) E). cbn beta iota in E'. rewrite <- E' in Hin.
  apply in_flat_map in Hin as (lx & _ & Hin). apply in_concat in Hin as (r & Hr & Hin). apply in_map_iff in Hr as ([rk pv] & <- & _).
  now apply in_new in Hin.
Qed.
Lemma new_parts_length P rank pv : length (new_parts P rank pv) = length pv.
Proof. unfold new_parts. rewrite map_length, combine_length, seq_length. lia. Qed.
Definition total_len {A} (ll : list (list A)) : nat := length (concat ll).
Lemma combine_seq_len P (ll : list (list (R * R * R * (R * R * R)))) : forall a,
  length (concat (map (fun '(rank, pv) => new_parts P rank pv) (combine (seq a (length ll)) ll))) = length (concat ll).
Proof. induction ll as [|l ll IH]; intros a; [reflexivity|]. cbn [length seq combine map concat]. rewrite !app_length, new_parts_length, IH. reflexivity. Qed.
(** If the sampler returns exactly the number asked for over all ranks, the number added is lines * per line. *)
Lemma added_count P num lines prop draw new n : add_particles P num lines prop draw = Some new -> per_line prop num lines = Some n -> (0 <= n)%Z ->
  (forall l, length (concat (draw l n)) = Z.to_nat n) -> Z.of_nat (length new) = (Z.of_nat lines * n)%Z.
Proof.
  unfold add_particles. intros E En Hn Hd. rewrite En in E. cbn [bind] in E.
  assert (E' := f_equal (fun o => match o with Some x => length x | None => O end) E). cbn beta iota in E'. rewrite <- E'. clear E E'.
  assert (H : forall k a, length (flat_map (fun linex => concat (map (fun '(rank, pv) => new_parts P rank pv) (combine (seq 0 (length (draw linex n))) (draw linex n)))) (seq a k)) = (k * Z.to_nat n)%nat).
  { induction k as [|k IH]; intros a; [reflexivity|]. cbn [seq flat_map]. rewrite app_length, IH, combine_seq_len, Hd. lia. }
  rewrite H, Nat2Z.inj_mul, Z2Nat.id by lia. reflexivity.
Qed.
Lemma per_line_spec prop num lines n : (0 < lines)%nat -> 0 <= prop -> (0 <= num)%Z -> per_line prop num lines = Some n ->
  (0 <= n)%Z /\ prop * IZR num - INR lines < INR lines * IZR n <= prop * IZR num.
Proof.
  intros Hl Hp Hn. assert (HL : 0 < INR lines) by (apply lt_0_INR; auto). unfold per_line. rewrite rdiv_ok by lra. cbn [bind].
  set (q := prop * (IZR num / INR lines)). assert (Hq : 0 <= q).
  { apply Rmult_le_pos; auto. apply Rmult_le_pos; [apply (IZR_le 0); auto|]. left. now apply Rinv_0_lt_compat. }
  assert (Eq : prop * IZR num = q * INR lines) by (unfold q; field; lra). rewrite Eq. clearbody q.
  rewrite Ztrunc_floor by auto. match goal with |- (if ?b then _ else _) = _ -> _ => destruct b end; [|discriminate].
  intros [= <-]. pose proof (Zfloor_lb q). pose proof (Zfloor_ub q). split; [apply le_IZR; simpl; assert (0 < IZR (Zfloor q) + 1) by lra; rewrite <- plus_IZR in *; apply (lt_IZR 0) in H1; apply IZR_le; lia|]. nra.
Qed.
Lemma per_line_zero prop num : per_line prop num 0 = None.
Proof. unfold per_line, rdiv. cbn [INR]. rewrite Req_bool_true by auto. reflexivity. Qed.

(** ** Moving preserves weights and identifiers *)
Lemma wt_euler dt p : wt (euler_sol dt p) = wt p /\ np_id (euler_sol dt p) = np_id p /\ np_w (euler_sol dt p) = np_w p.
Proof. unfold wt, euler_sol. destruct (np_pos p) as [[x y] z], (np_vel p) as [[v0 v1] v2]. cbn. auto. Qed.
Lemma wt_pbc f p : wt (periodic_bc f p) = wt p. Proof. reflexivity. Qed.

Definition lost (P : sparams) (periodic : bool) (l : list npart) : list npart := if periodic then [] else filter (outside P) l.
Lemma transfer_balance P per pbc l : (forall p, In p l -> (0 <= fst (np_id p))%Z) ->
  total_weight l = total_weight (transfer_sol P per pbc l) + total_weight (lost P per l).
Proof.
  intros Hid. unfold transfer_sol, lost. rewrite (total_map_same (periodic_bc pbc)) by (intros; apply wt_pbc).
  destruct per; [unfold total_weight at 3; simpl; ring|]. rewrite wall_bc_eq, (total_filter (outside P) l). rewrite Rplus_comm. f_equal. f_equal. apply filter_ext_in.
  intros p Hp. replace (marked p) with false; [now rewrite andb_true_r|]. symmetry. unfold marked, particle_remove_key. apply Z.eqb_neq. specialize (Hid p Hp). lia.
Qed.
Lemma transfer_in P per pbc l p : In p (transfer_sol P per pbc l) -> exists q, In q l /\ p = periodic_bc pbc q.
Proof.
  unfold transfer_sol. rewrite in_map_iff. intros (q & <- & Hq). exists q. split; auto. destruct per; auto. rewrite wall_bc_eq in Hq. now apply filter_In in Hq.
Qed.

(** ** Ionising a list *)
Lemma ionise_list P F dt l : params_ok P -> fields_ok F -> 0 < dt -> (forall p, In p l -> good_weight p /\ (0 <= fst (np_id p))%Z) ->
  exists rho, dsum np_sd (ionise_all P F dt l) = Some rho /\
    total_weight l = total_weight (remove_marked (ionise_all P F dt l)) + dt * sp_n_to_SI P * rho /\
    finite_source (project_source (ionise_all P F dt l)) = true /\
    (forall p, In p (remove_marked (ionise_all P F dt l)) -> good_weight p /\ (0 <= fst (np_id p))%Z).
Proof.
  intros HP HF Hdt Hg. set (h := fun p => ionise_sol P (sf_n F (np_pos p)) (sf_T F (np_pos p)) dt p).
  change (ionise_all P F dt l) with (map h l).
  set (sd := fun p => match np_sd p with Some x => x | None => 0 end).
  assert (Hs : forall p, In p l -> exists w w' s m0 m1 e, np_w p = Some w /\ 0 <= w /\ np_w (h p) = Some w' /\ 0 <= w' /\ np_sd (h p) = Some s /\ s * dt * sp_n_to_SI P = w - w' /\
    np_sm (h p) = (Some m0, Some m1) /\ np_se (h p) = Some e /\ (marked (h p) = true -> w' = 0) /\ (marked (h p) = false -> (0 <= fst (np_id (h p)))%Z)).
  { intros p Hp. destruct (Hg p Hp) as [(w & Ew & Hw) Hid]. destruct (HF (np_pos p)) as [HT Hn].
    destruct (ionise_sol_spec P (sf_n F (np_pos p)) (sf_T F (np_pos p)) dt p w HP HT Hn Hdt Ew Hw) as (r & _ & _ & H). cbv zeta in H. fold (h p) in H.
    set (w' := Rmax 0 _) in H. destruct H as (E1 & (s & E2 & E3 & E4 & E5) & _ & _ & _ & H0 & H1).
    assert (Hw' : 0 <= w') by apply Rmax_l. exists w, w', s. do 3 eexists.
    split; [exact Ew|]. split; [exact Hw|]. split; [exact E1|]. split; [exact Hw'|]. split; [exact E2|]. split; [exact E3|]. split; [exact E4|]. split; [exact E5|].
    unfold marked, particle_remove_key in *. destruct (Rle_lt_or_eq_dec 0 w' Hw') as [Hpos|Hz].
    - rewrite (H1 Hpos). split; intros Hm; [apply Z.eqb_eq in Hm; lia|exact Hid].
    - rewrite (H0 (eq_sym Hz)). split; intros Hm; [auto|discriminate Hm]. }
  assert (Hrho : dsum np_sd (map h l) = Some (rsum_list (map sd (map h l)))).
  { apply dsum_some. intros q Hq. apply in_map_iff in Hq as (p & <- & Hp). destruct (Hs p Hp) as (w & w' & s & m0 & m1 & e & _ & _ & _ & _ & E & _). unfold sd. now rewrite E. }
  exists (rsum_list (map sd (map h l))). split; [exact Hrho|]. split; [|split].
  - transitivity (total_weight (map h l) + dt * sp_n_to_SI P * rsum_list (map sd (map h l))).
    + clear Hg Hrho. induction l as [|p l IH]; [unfold total_weight, rsum_list; simpl; ring|].
      destruct (Hs p (or_introl eq_refl)) as (w & w' & s & m0 & m1 & e & E1 & _ & E2 & _ & E3 & E4 & _).
      change (total_weight (p :: l)) with (wt p + total_weight l). cbn [map]. change (total_weight (h p :: map h l)) with (wt (h p) + total_weight (map h l)).
      rewrite IH by (intros; apply Hs; now right). unfold wt at 1 2. rewrite E1, E2. assert (Esd : sd (h p) = s) by (unfold sd; now rewrite E3). unfold rsum_list. cbn [map fold_right]. rewrite Esd. nra.
    + f_equal. rewrite (total_filter (fun p => negb (marked p))). unfold remove_marked.
      replace (total_weight (filter _ (map h l))) with (total_weight (filter (fun p => negb (marked p)) (map h l))) at 1 by reflexivity.
      rewrite (total_zero (filter (fun p => negb (negb (marked p))) (map h l))); [ring|].
      intros q Hq. apply filter_In in Hq as [Hq Hm]. rewrite negb_involutive in Hm. apply in_map_iff in Hq as (p & <- & Hp).
      destruct (Hs p Hp) as (w & w' & s & m0 & m1 & e & _ & _ & E2 & _ & _ & _ & _ & _ & Hz & _). unfold wt. rewrite E2. auto.
  - assert (Hd : forall f, (forall p, In p l -> exists x, f (h p) = Some x) -> exists x, dsum f (map h l) = Some x).
    { intros f Hf. exists (rsum_list (map (fun p => match f p with Some x => x | None => 0 end) (map h l))). apply dsum_some. intros q Hq. apply in_map_iff in Hq as (p & <- & Hp).
      destruct (Hf p Hp) as (x & E). now rewrite E. }
    destruct (Hd (fun p => fst (np_sm p))) as (x1 & E1). { intros p Hp. destruct (Hs p Hp) as (w & w' & s & m0 & m1 & e & _ & _ & _ & _ & _ & _ & E & _). rewrite E. eexists; reflexivity. }
    destruct (Hd (fun p => snd (np_sm p))) as (x2 & E2). { intros p Hp. destruct (Hs p Hp) as (w & w' & s & m0 & m1 & e & _ & _ & _ & _ & _ & _ & E & _). rewrite E. eexists; reflexivity. }
    destruct (Hd np_se) as (x3 & E3). { intros p Hp. destruct (Hs p Hp) as (w & w' & s & m0 & m1 & e & _ & _ & _ & _ & _ & _ & _ & E & _). rewrite E. eexists; reflexivity. }
    unfold finite_source, project_source. cbn [fs_rho fs_rhou fs_rhov fs_E]. rewrite Hrho, E1, E2, E3. reflexivity.
  - intros q Hq. unfold remove_marked in Hq. apply filter_In in Hq as [Hq Hm]. apply negb_true_iff in Hm. apply in_map_iff in Hq as (p & <- & Hp).
    destruct (Hs p Hp) as (w & w' & s & m0 & m1 & e & _ & _ & E2 & Hw' & _ & _ & _ & _ & _ & Hi). split; [exists w'; auto|auto].
Qed.

(** ** One fluid step with one particle substep *)
Lemma int_loop_one step fuel t dt s s' : 0 < dt -> int_loop step fuel (t + dt) dt t s = IOk s' ->
  exists s1, step dt s = Some s1 /\ s' = at_time (t + dt) s1.
Proof.
  intros Hd. destruct fuel as [|[|k]]; [discriminate| |]; cbn [int_loop]; rewrite Rlt_bool_true by lra; cbv zeta; rewrite fmin_Rmin, Rmin_left by lra; destruct (step dt s) as [s1|]; try discriminate.
  cbn [int_loop]. rewrite Rlt_bool_false by lra. intros [= <-]. exists s1. split; reflexivity.
Qed.
Lemma pre_one E F fuel dt s src s' : params_ok (se_P E) -> fields_ok F -> 0 < dt -> good_state s ->
  pre_integrate E F fuel (ps_time s) dt 1 s = Some (src, s') ->
  exists new rho, add_particles (se_P E) (se_num E) (se_lines E) 1 (se_draw E (ps_calls s)) = Some new /\
    fs_rho src = Some rho /\ ps_added s' = (ps_added s + Z.of_nat (length new))%Z /\ ps_time s' = ps_time s + dt /\ ps_calls s' = S (ps_calls s) /\ good_state s' /\
    total_weight (ps_parts s) + INR (length new) * sp_weight (se_P E) =
    total_weight (ps_parts s') + total_weight (lost (se_P E) (se_periodic E) (map (euler_sol dt) (ps_parts s ++ new))) + dt * sp_n_to_SI (se_P E) * rho.
Proof.
  intros HP HF Hd Hg. unfold pre_integrate. rewrite rdiv_ok by lra. cbn [bind]. replace (dt / 1) with dt by field. unfold integrate_sol.
  rewrite Rlt_bool_false, Req_bool_false by lra. destruct (int_loop _ _ _ _ _ _) as [| | |s1] eqn:El; try discriminate.
  apply int_loop_one in El as (s0 & E0 & ->); auto. unfold substep_sol in E0. rewrite rdiv_ok in E0 by lra. cbn [bind] in E0. replace (dt / dt) with 1 in E0 by (field; lra).
  destruct (add_particles (se_P E) (se_num E) (se_lines E) 1 (se_draw E (ps_calls s))) as [new|] eqn:En; [|discriminate]. cbn [bind] in E0.
  set (l1 := map (euler_sol dt) (ps_parts s ++ new)) in *. set (l2 := transfer_sol (se_P E) (se_periodic E) (se_pbc E) l1) in *.
  injection E0 as <-. cbn [at_time ps_parts ps_time ps_calls ps_added].
  assert (Hl0 : forall p, In p (ps_parts s ++ new) -> good_weight p /\ (0 <= fst (np_id p))%Z).
  { intros p Hp. apply in_app_or in Hp as [Hp|Hp]; [apply Hg; auto|]. destruct (in_added _ _ _ _ _ _ _ En Hp) as [Hw Hi]. split; auto. exists (sp_weight (se_P E)). split; auto. apply HP. }
  assert (Hl1 : forall p, In p l1 -> good_weight p /\ (0 <= fst (np_id p))%Z).
  { intros p Hp. apply in_map_iff in Hp as (q & <- & Hq). destruct (Hl0 q Hq) as [H1 H2]. destruct (wt_euler dt q) as (_ & Ei & Ew). unfold good_weight. rewrite Ei, Ew. auto. }
  assert (Hl2 : forall p, In p l2 -> good_weight p /\ (0 <= fst (np_id p))%Z). { intros p Hp. apply transfer_in in Hp as (q & Hq & ->). apply (Hl1 q Hq). }
  destruct (ionise_list (se_P E) F dt l2 HP HF Hd Hl2) as (rho & Er & Eb & Ef & Hgood). rewrite Ef. intros [= <- <-].
  exists new, rho. cbn [ps_time ps_calls ps_added ps_parts]. split; [reflexivity|]. split; [exact Er|]. split; [reflexivity|]. split; [reflexivity|]. split; [reflexivity|]. split; [exact Hgood|].
  assert (B1 : total_weight (ps_parts s ++ new) = total_weight l1). { symmetry. apply total_map_same. intros p _. apply wt_euler. }
  assert (B2 : total_weight new = INR (length new) * sp_weight (se_P E)).
  { assert (Hw : forall p, In p new -> wt p = sp_weight (se_P E)). { intros p Hp. destruct (in_added _ _ _ _ _ _ _ En Hp) as [Hw _]. unfold wt. now rewrite Hw. }
    clear - Hw. induction new as [|p l IH]; [unfold total_weight; simpl; ring|]. change (total_weight (p :: l)) with (wt p + total_weight l). cbn [length]. rewrite S_INR, (Hw p) by (now left). rewrite IH by (intros; apply Hw; now right). ring. }
  rewrite <- B2, <- total_app, B1, (transfer_balance (se_P E) (se_periodic E) (se_pbc E) l1) by (intros p Hp; apply (Hl1 p Hp)).
  fold l2. rewrite Eb. fold l1. ring.
Qed.
