(** Lemmas for C69-C71: histories, counterexamples, source lines. *)
From Verif Require Import M_Sol S_Sol L_RealBase L_Coord L_Sol L_Sol2 L_Sol3.
From Coq Require Import Lra Lia Psatz List.
Import ListNotations.

Lemma euler_moved dt l : Forall2 (moved dt) l (map (euler_sol dt) l).
Proof.
  induction l as [|p l IH]; cbn [map]; constructor; auto. unfold moved, euler_sol. destruct (np_pos p) as [[x y] z], (np_vel p) as [[v0 v1] v2]. cbn. auto.
Qed.

Lemma balance_step E F fuel dt s src s' : params_ok (se_P E) -> fields_ok F -> 0 < dt -> good_state s ->
  pre_integrate E F fuel (ps_time s) dt 1 s = Some (src, s') ->
  exists new rho moved_parts gone, fs_rho src = Some rho /\ ps_added s' = (ps_added s + Z.of_nat (length new))%Z /\ ps_time s' = ps_time s + dt /\ good_state s' /\
    (forall p, In p new -> np_w p = Some (sp_weight (se_P E))) /\
    Forall2 (moved dt) (ps_parts s ++ new) moved_parts /\ (forall p, In p gone <-> In p moved_parts /\ left_domain (se_P E) (se_periodic E) p) /\
    total_weight (ps_parts s) + INR (length new) * sp_weight (se_P E) =
    total_weight (ps_parts s') + total_weight gone + dt * sp_n_to_SI (se_P E) * rho.
Proof.
  intros HP HF Hd Hg H. destruct (pre_one _ _ _ _ _ _ _ HP HF Hd Hg H) as (new & rho & En & Er & Ea & Et & _ & Hg' & Eb).
  exists new, rho, (map (euler_sol dt) (ps_parts s ++ new)), (lost (se_P E) (se_periodic E) (map (euler_sol dt) (ps_parts s ++ new))).
  split; [exact Er|]. split; [exact Ea|]. split; [exact Et|]. split; [exact Hg'|]. split; [intros p Hp; now destruct (in_added _ _ _ _ _ _ _ En Hp)|].
  split; [apply euler_moved|]. split; [|exact Eb]. intros p. unfold lost, left_domain. destruct (se_periodic E); [split; [intros []|intros (_ & F0 & _); discriminate]|].
  rewrite filter_In, outside_spec. tauto.
Qed.

Lemma history_balance E dt s0 M0 s M : params_ok (se_P E) -> se_periodic E = true -> 0 < dt -> good_state s0 ->
  sol_history E dt s0 M0 s M -> good_state s /\
  total_weight (ps_parts s) + M - added_mass (se_P E) (ps_added s) = total_weight (ps_parts s0) + M0 - added_mass (se_P E) (ps_added s0).
Proof.
  intros HP Hper Hd Hg H. induction H as [|s M F fuel src rho s' H [IHg IH] HF Hpre Hr]; [split; auto|].
  destruct (pre_one _ _ _ _ _ _ _ HP HF Hd IHg Hpre) as (new & rho' & _ & Er & Ea & _ & _ & Hg' & Eb). rewrite Hr in Er. injection Er as <-.
  split; [exact Hg'|]. rewrite <- IH. rewrite Ea. unfold added_mass. rewrite plus_IZR, <- INR_IZR_INZ.
  rewrite Hper in Eb. cbn [lost] in Eb. change (total_weight []) with 0 in Eb. rewrite Rmult_plus_distr_r. lra.
Qed.
Lemma mass_of s : good_state s -> particle_mass (ps_parts s) = Some (total_weight (ps_parts s)).
Proof.
  intros Hg. unfold particle_mass, total_weight. apply dsum_some. intros p Hp. destruct (Hg p Hp) as [(w & E & _) _]. unfold wt. now rewrite E.
Qed.
Lemma history_error E dt s0 M0 s M : params_ok (se_P E) -> se_periodic E = true -> 0 < dt -> good_state s0 ->
  total_weight (ps_parts s0) = added_mass (se_P E) (ps_added s0) ->
  sol_history E dt s0 M0 s M -> added_mass (se_P E) (ps_added s) + M0 <> 0 -> mass_error (se_P E) M0 M s = Some 0.
Proof.
  intros HP Hper Hd Hg H0 H Hc. destruct (history_balance _ _ _ _ _ _ HP Hper Hd Hg H) as [Hg' Eb]. unfold mass_error. rewrite mass_of by auto. cbn [bind].
  replace (added_mass (se_P E) (ps_added s) + M0 - (total_weight (ps_parts s) + M)) with 0 by lra. rewrite Rabs_R0, rdiv_ok by (now apply Rabs_no_R0).
  f_equal. unfold Rdiv. apply Rmult_0_l.
Qed.

(** ** Two substeps lose a particle that ionises completely in the first *)
Definition wP (theta : R) : sparams := {| sp_n_to_SI := 1; sp_T_to_eV := 1; sp_t_to_SI := 1; sp_theta := theta; sp_x_max := 110; sp_weight := 1 |}.
Definition wE : senv := {| se_P := wP 0; se_periodic := true; se_pbc := fun x => x; se_num := 0; se_lines := 1; se_draw := fun _ _ _ => [[]] |}.
Definition wp : npart := mkNp (55, 1/2, 0) (1, 0, 0) (0%Z, 0%Z) (Some 1) (Some 0) (Some 0, Some 0) (Some 0).
Definition ws : psys := {| ps_time := 0; ps_calls := 0; ps_added := 1; ps_parts := [wp] |}.
Definition wF (r : R) : sfields := {| sf_n := fun _ => 2 / r; sf_T := fun _ => 1 |}.
Lemma wadd prop : add_particles (wP 0) 0 1 prop (fun _ _ => [[]]) = Some [].
Proof.
  unfold add_particles, per_line. rewrite rdiv_ok by (simpl; lra). cbn [bind]. replace (prop * (0 / INR 1)) with 0 by (simpl; field).
  change 0 with (IZR 0). rewrite Ztrunc_IZR. reflexivity.
Qed.
Lemma w_substep r p w calls : 0 < r -> ion_rate 1 = Some r -> (w = 1 \/ w = 0) -> np_w p = Some w -> fst (np_id p) = (if Req_bool w 1 then 0 else -1)%Z ->
  exists p', substep_sol wE (wF r) (1/2) (1/2) {| ps_time := 0; ps_calls := calls; ps_added := 1; ps_parts := [p] |} =
     Some {| ps_time := 0; ps_calls := S calls; ps_added := 1; ps_parts := [p'] |} /\
     np_w p' = Some 0 /\ fst (np_id p') = particle_remove_key /\ np_sd p' = Some (2 * w) /\
     exists m0 m1 e, np_sm p' = (Some m0, Some m1) /\ np_se p' = Some e.
Proof.
  intros Hr Er Hw Ew Hid. unfold substep_sol. rewrite rdiv_ok by lra. cbn [bind ps_calls se_P se_num se_lines se_draw wE ps_parts ps_added ps_time].
  rewrite wadd. cbn [bind app map length Z.of_nat Z.add]. unfold transfer_sol. cbn [se_periodic se_pbc wE map].
  set (q := periodic_bc (fun x => x) (euler_sol (1/2) p)).
  assert (Eq : np_w q = Some w) by (unfold q, periodic_bc; cbn [np_w]; destruct (wt_euler (1/2) p) as (_ & _ & E); now rewrite E).
  assert (Hw0 : 0 <= w) by lra.
  assert (HP : params_ok (wP 0)) by (unfold params_ok, wP; cbn [sp_n_to_SI sp_T_to_eV sp_t_to_SI sp_weight]; lra).
  assert (Hn : 0 <= 2 / r) by (apply Rmult_le_pos; [lra|left; now apply Rinv_0_lt_compat]).
  destruct (ionise_sol_spec (wP 0) (2 / r) 1 (1/2) q w HP ltac:(lra) Hn ltac:(lra) Eq Hw0) as (r' & Er' & _ & H).
  cbv zeta in H. cbn [sp_n_to_SI sp_T_to_eV sp_t_to_SI sp_theta wP] in *. rewrite Rmult_1_r, Er in Er'. injection Er' as <-.
  replace (w * (1 - r * (1 / 2 * 1) * (2 / r * 1))) with 0 in H by (field; lra). rewrite Rmax_left in H by lra.
  destruct H as (E1 & (sd & E2 & E3 & E4 & E5) & _ & _ & _ & E6 & _).
  exists (ionise_sol (wP 0) (2 / r) 1 (1 / 2) q). split; [reflexivity|]. split; [exact E1|]. split; [now apply E6|]. split; [rewrite E2; f_equal; lra|].
  do 3 eexists. split; [exact E4|exact E5].
Qed.
Lemma two_substeps : exists F s', fields_ok F /\ params_ok (se_P wE) /\ good_state ws /\ ps_time ws = 0 /\
  pre_integrate wE F 3 0 1 2 ws = Some ({| fs_rho := Some 0; fs_rhou := Some 0; fs_rhov := Some 0; fs_E := Some 0 |}, s') /\
  total_weight (ps_parts ws) = 1 /\ ps_parts s' = [] /\ ps_added s' = ps_added ws.
Proof.
  destruct (rate_pos 1 ltac:(lra)) as (r & Er & Hr). assert (Hn : 0 <= 2 / r) by (apply Rmult_le_pos; [lra|left; now apply Rinv_0_lt_compat]).
  destruct (w_substep r wp 1 0 Hr Er (or_introl eq_refl) eq_refl) as (p1 & S1 & W1 & I1 & D1 & _). { rewrite Req_bool_true by auto. reflexivity. }
  destruct (w_substep r p1 0 1 Hr Er (or_intror eq_refl) W1) as (p2 & S2 & W2 & I2 & D2 & m0 & m1 & e & Em & Ee). { rewrite Req_bool_false by lra. exact I1. }
  assert (Ez : m0 = 0 /\ m1 = 0 /\ e = 0).
  { clear S1. unfold substep_sol in S2. rewrite rdiv_ok in S2 by lra. cbn [bind ps_calls se_P se_num se_lines se_draw wE ps_parts ps_added ps_time] in S2.
    rewrite wadd in S2. cbn [bind app map] in S2. unfold transfer_sol in S2. cbn [se_periodic se_pbc wE map ionise_all] in S2.
    set (q := periodic_bc (fun x => x) (euler_sol (1/2) p1)) in *.
    assert (E2 : ionise_sol (wP 0) (sf_n (wF r) (np_pos q)) (sf_T (wF r) (np_pos q)) (1 / 2) q = p2) by (injection S2 as E2; exact E2).
    assert (Eq : np_w q = Some 0) by (unfold q, periodic_bc; cbn [np_w]; destruct (wt_euler (1/2) p1) as (_ & _ & E); now rewrite E).
    assert (HP : params_ok (wP 0)) by (unfold params_ok, wP; cbn [sp_n_to_SI sp_T_to_eV sp_t_to_SI sp_weight]; lra).
    destruct (ionise_sol_spec (wP 0) (2 / r) 1 (1/2) q 0 HP ltac:(lra) Hn ltac:(lra) Eq ltac:(lra)) as (r' & _ & _ & H). cbv zeta in H.
    change (ionise_sol (wP 0) (2 / r) 1 (1 / 2) q = p2) in E2. rewrite E2 in H. destruct H as (_ & (sd & F2 & _ & F4 & F5) & _).
    rewrite D2 in F2. injection F2 as F2. replace (2 * 0) with 0 in F2 by ring. rewrite <- F2 in *. rewrite Em in F4. injection F4 as F4 F4'. rewrite Ee in F5. injection F5 as F5. subst. repeat split; ring. }
  destruct Ez as (-> & -> & ->).
  exists (wF r). eexists. split; [intros x; cbn; lra|]. split; [unfold params_ok, wP; cbn; lra|].
  split; [intros p [<-|[]]; split; [exists 1; split; [reflexivity|lra]|cbn; lia]|]. split; [reflexivity|].
  split.
  - unfold pre_integrate. rewrite rdiv_ok by lra. cbn [bind]. unfold integrate_sol. cbn [ps_time ws]. rewrite Rlt_bool_false, Req_bool_false by lra.
    cbn [int_loop]. rewrite Rlt_bool_true by lra. cbv zeta. rewrite fmin_Rmin, Rmin_left by lra. change ws with {| ps_time := 0; ps_calls := 0; ps_added := 1; ps_parts := [wp] |}. rewrite S1.
    rewrite Rlt_bool_true by lra. rewrite fmin_Rmin, Rmin_left by lra. rewrite S2. rewrite Rlt_bool_false by lra.
    cbn [ps_parts ps_time ps_calls ps_added]. unfold project_source, dsum. cbn [fold_left]. rewrite D2, Em, Ee. cbn [fst snd d2 bind].
    unfold finite_source. cbn [fs_rho fs_rhou fs_rhov fs_E]. replace (0 + 2 * 0) with 0 by ring. replace (0 + 0) with 0 by ring.
    unfold remove_marked. cbn [filter]. unfold marked. rewrite I2. cbn. reflexivity.
  - cbn. repeat split. unfold total_weight, rsum_list. cbn. lra.
Qed.

(** ** Walls *)
Lemma walls_rotated P l : sp_theta P = PI / 2 -> (forall y_max p, In p l -> in_domain P y_max p -> 0 < snd (fst (np_pos p)) -> fst (fst (np_pos p)) <> 0 -> ~ In p (wall_bc P l)).
Proof.
  intros Ht y_max p Hp Hd _ Hx H. apply walls_kept in H as (_ & H & _). unfold in_domain in Hd. destruct (np_pos p) as [[x y] z]. cbn [fst snd] in *. rewrite Ht, cos_PI2, sin_PI2 in Hd. lra.
Qed.
Lemma transfer_kept P per pbc l q : In q (transfer_sol P per pbc l) <->
  exists p, In p l /\ (per = false -> 0 <= fst (fst (np_pos p)) <= sp_x_max P /\ fst (np_id p) <> particle_remove_key) /\ q = periodic_bc pbc p.
Proof.
  unfold transfer_sol. rewrite in_map_iff. split.
  - intros (p & <- & Hp). destruct per; [exists p; split; auto; split; [discriminate|auto]|]. apply walls_kept in Hp as (H1 & H2). exists p. auto.
  - intros (p & Hp & H & ->). exists p. split; auto. destruct per; auto. apply walls_kept. auto.
Qed.

(** ** Units, weights, lines *)
Lemma units_pos Rs rhoInf uInf : 0 < Rs -> 0 < rhoInf -> 0 < uInf ->
  exists n T t, sol_units Rs rhoInf uInf = Some (n, T, t) /\ 0 < n /\ 0 < T /\ 0 < t.
Proof.
  intros H1 H2 H3. unfold sol_units. cbv zeta.
  assert (Hd : forall a b, 0 < a -> 0 < b -> 0 < a / b) by (intros; now apply Rdiv_lt_0_compat).
  assert (A : forall k, 0 < 10 ^ k) by (intros; apply pow_lt; lra).
  assert (P1 : 0 < 1380649 / 10 ^ 29) by (apply Hd; [lra|apply A]). assert (P2 : 0 < 2 * (167 / 10 ^ 29)) by (apply Rmult_lt_0_compat; [lra|]; apply Hd; [lra|apply A]).
  assert (P3 : 0 < 8617333262 / 10 ^ 14) by (apply Hd; [lra|apply A]). assert (P4 : 0 < 3 * 10 ^ 4) by (apply Rmult_lt_0_compat; [lra|apply A]).
  assert (P5 : 0 < 3 * 10 ^ 18) by (apply Rmult_lt_0_compat; [lra|apply A]).
  set (a := 1380649 / 10 ^ 29) in *. set (b := 2 * (167 / 10 ^ 29)) in *. set (c := 8617333262 / 10 ^ 14) in *. set (d := 3 * 10 ^ 4) in *. set (e := 3 * 10 ^ 18) in *.
  clearbody a b c d e. clear A. rewrite (rdiv_ok a b) by lra. cbn [bind]. assert (Q1 := Hd _ _ P1 P2). rewrite (rdiv_ok _ Rs) by lra. cbn [bind]. assert (Q2 := Hd _ _ Q1 H1).
  rewrite (rdiv_ok d) by lra. cbn [bind]. assert (Q3 := Hd _ _ P4 H3). assert (Q4 : 0 < d / uInf * (d / uInf)) by (now apply Rmult_lt_0_compat).
  rewrite rdiv_ok by (apply Rgt_not_eq; exact Q2). cbn [bind]. rewrite rdiv_ok by lra. cbn [bind]. rewrite rdiv_ok by (apply Rgt_not_eq; exact Q3). cbn [bind].
  do 3 eexists. split; [reflexivity|]. split; [now apply Hd|]. split; [apply Rmult_lt_0_compat; auto|]. apply Hd; [lra|auto].
Qed.
Lemma weight_spec width x_max y_max density num : 0 < width -> 0 < x_max -> 0 < y_max -> (0 < num)%Z ->
  exists w d, sol_weight width x_max y_max density num = (Some w, Some d) /\ 0 <= w /\
    (0 <= density -> d = density /\ w * IZR num = density * (width * x_max * y_max)) /\ (density < 0 -> w = 1 /\ d * (width * x_max * y_max) = IZR num).
Proof.
  intros H1 H2 H3 Hn. assert (HN : 0 < IZR num) by (apply IZR_lt; auto). unfold sol_weight. cbv zeta. rewrite Rmult_1_r. assert (HV : 0 < width * x_max * y_max) by (repeat apply Rmult_lt_0_compat; auto).
  set (V := width * x_max * y_max) in *. clearbody V. case Rlt_bool_spec; intros Hd.
  - rewrite rdiv_ok by lra. do 2 eexists. split; [reflexivity|]. split; [lra|]. split; [lra|]. intros _. split; auto. field. lra.
  - replace (Z.eqb num 0) with false by (symmetry; apply Z.eqb_neq; lia). rewrite rdiv_ok by lra. do 2 eexists. split; [reflexivity|]. split; [|split; [intros _; split; auto; field; lra|lra]].
    apply Rmult_le_pos; [apply Rmult_le_pos; lra|left; now apply Rinv_0_lt_compat].
Qed.
Lemma weight_zero width x_max y_max density : 0 <= density -> sol_weight width x_max y_max density 0 = (Some 0, Some density).
Proof. intros H. unfold sol_weight. rewrite Rlt_bool_false by auto. reflexivity. Qed.

Lemma lines_bad erf theta width x_max y_max offset count k : count <> 1%Z -> count <> 2%Z -> sol_lines erf theta width x_max y_max offset count k = None.
Proof. intros H1 H2. unfold sol_lines, sol_regions. apply Z.eqb_neq in H1, H2. rewrite H1, H2. reflexivity. Qed.
Lemma lines_spec erf theta width x_max y_max offset count k ls : sol_lines erf theta width x_max y_max offset count k = Some ls ->
  exists centres, ls = flat_map (fun c => map (fun i => let x := c + 3 * (width * x_max) * erf ((2 * INR i + 1) / INR k - 1) in
       ((x * cos theta, x * sin theta), (x * cos theta - y_max * sin theta, x * sin theta + y_max * cos theta))) (seq 0 k)) centres /\
    ((count = 1%Z /\ centres = [x_max / 2]) \/ (count = 2%Z /\ centres = [offset * x_max; x_max - offset * x_max])).
Proof.
  unfold sol_lines. destruct (sol_regions count offset x_max) as [cs|] eqn:E; [|discriminate]. cbn [bind]. cbv zeta. intros H.
  assert (H' := f_equal (fun o => match o with Some x => x | None => [] end) H). cbn beta iota in H'. rewrite <- H'. exists cs. split.
  - clear. induction cs as [|c cs IH]; [reflexivity|]. cbn [flat_map]. f_equal; [|exact IH]. apply map_ext_in. intros i Hi.
    apply in_seq in Hi. assert (HK : INR k <> 0) by (apply not_0_INR; lia).
    replace (INR i * 2 / INR k - 1 + 1 / INR k) with ((2 * INR i + 1) / INR k - 1) by (field; auto). set (e := erf _). clearbody e. unfold sol_rotate. cbn [fst snd]. f_equal; f_equal; ring.
  - unfold sol_regions in E. destruct (Z.eqb_spec count 1); [injection E as <-; left; split; auto; f_equal; field|]. destruct (Z.eqb_spec count 2); [|discriminate].
    injection E as <-. right. split; auto. f_equal. f_equal. ring.
Qed.
(** Lines i and k-1-i of a region are symmetric about its centre. *)
Lemma lines_sym (erf : R -> R) k i : (i < k)%nat -> (forall x, erf (- x) = - erf x) -> erf ((2 * INR i + 1) / INR k - 1) + erf ((2 * INR (k - 1 - i) + 1) / INR k - 1) = 0.
Proof.
  intros Hi Ho. assert (HK : INR k <> 0) by (apply not_0_INR; lia).
  replace ((2 * INR (k - 1 - i) + 1) / INR k - 1) with (- ((2 * INR i + 1) / INR k - 1)).
  - rewrite Ho. ring.
  - rewrite !minus_INR by lia. cbn [INR]. field. auto.
Qed.
