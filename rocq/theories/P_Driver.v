(** C90: the main loop of the Electrostatic2D3V solvers and what it writes. *)
From Verif Require Import M_Driver P_Writer L_Driver L_ListX.
From Coq Require Import Lia Lra ZArith List Bool String Reals Sorted.
Import ListNotations.
Open Scope string_scope.
Open Scope list_scope.
Open Scope R_scope.

(** The steps 0, f, 2f, ... below N, in increasing order; none if f is not positive. *)
Definition steps_of (f N : Z) (l : list Z) : Prop :=
  StronglySorted Z.lt l /\ forall s, In s l <-> (0 < f)%Z /\ (0 <= s < N)%Z /\ (f | s)%Z.
Lemma steps_of_unique f N l l' : steps_of f N l -> steps_of f N l' -> l = l'.
Proof.
  intros [S1 I1] [S2 I2]. assert (I : forall s, In s l <-> In s l') by (intros s; rewrite I1, I2; tauto). clear I1 I2. revert l' S2 I.
  induction S1 as [|a l S1 IH F1]; intros l' S2 I.
  - destruct l' as [|b l']; [reflexivity|]. destruct (proj2 (I b) (or_introl eq_refl)).
  - destruct S2 as [|b l' S2 F2]; [destruct (proj1 (I a) (or_introl eq_refl))|]. rewrite Forall_forall in F1, F2.
    assert (a = b). { destruct (proj1 (I a) (or_introl eq_refl)) as [E|Ha]; [auto|]. destruct (proj2 (I b) (or_introl eq_refl)) as [E|Hb]; [auto|]. specialize (F1 b Hb). specialize (F2 a Ha). lia. }
    subst b. f_equal. apply IH; [exact S2|]. intros s. split; intros Hs.
    + destruct (proj1 (I s) (or_intror Hs)) as [<-|]; [|auto]. specialize (F1 a Hs). lia.
    + destruct (proj2 (I s) (or_intror Hs)) as [<-|]; [|auto]. specialize (F2 a Hs). lia.
Qed.
(** The state of the simulation after the pass with number s (counted from 0) of the loop. *)
Definition state_after {W} (step : W -> W) (w0 : W) (s : Z) : W := Nat.iter (S (Z.to_nat s)) step w0.

Lemma sorted_upto n : StronglySorted Z.lt (upto n).
Proof.
  unfold upto. generalize 0%nat as a. induction n as [|n IH]; intros a; cbn [seq map]; constructor; [apply IH|].
  apply Forall_forall. intros x Hx. apply in_map_iff in Hx as (y & <- & Hy). apply in_seq in Hy. lia.
Qed.
Lemma sorted_filter (p : Z -> bool) l : StronglySorted Z.lt l -> StronglySorted Z.lt (filter p l).
Proof.
  induction 1 as [|a l H IH F]; cbn; [constructor|]. destruct (p a); [|exact IH]. constructor; [exact IH|].
  apply Forall_forall. intros x Hx. apply filter_In in Hx as [Hx _]. rewrite Forall_forall in F. auto.
Qed.
Lemma outs_steps f N : steps_of f N (outs f (Z.to_nat N)).
Proof.
  split; [apply sorted_filter, sorted_upto|]. intros s. unfold outs. rewrite filter_In, in_upto, due_spec. split; intros H; repeat split; try tauto; try lia.
Qed.
Lemma line_outs_steps d f nx ny N : ds_line d = Some (f, nx, ny) -> (0 < f)%Z -> line_outs d (Z.to_nat N) = outs f (Z.to_nat N).
Proof.
  intros E Hf. unfold line_outs, outs. apply filter_ext. intros s. unfold line_due, due. rewrite E. replace (0 <? f)%Z with true by (symmetry; apply Z.ltb_lt; auto). reflexivity.
Qed.
Lemma line_outs_none d n : ds_line d = None -> line_outs d n = [].
Proof. intros E. unfold line_outs. generalize (upto n). induction l as [|a l IH]; [reflexivity|]. cbn [filter]. unfold line_due at 1. rewrite E. exact IH. Qed.

Lemma drv_line_step ints j f nx ny : drv_line ints j = FOk (Some (f, nx, ny)) ->
  (0 < f)%Z /\ (0 <= nx)%Z /\ (0 <= ny)%Z /\ (nx * ny < 2 ^ 31)%Z /\ ints "line_field_deriv_evaluations_step" = Some f /\ ints "line_field_deriv_evaluations_numx" = Some nx /\ ints "line_field_deriv_evaluations_numy" = Some ny.
Proof.
  unfold drv_line. destruct (ints "line_field_deriv_evaluations_step") as [s|]; cbn [defd need fbind andb]; [|discriminate].
  destruct (ints "line_field_deriv_evaluations_numx") as [x|]; cbn [need fbind]; [|discriminate].
  destruct (ints "line_field_deriv_evaluations_numy") as [y|]; cbn [need fbind fst snd]; [|discriminate].
  destruct (Z.ltb_spec 0 s); [|discriminate]. destruct (Z.leb_spec 0 x); cbn [andb negb]; [|discriminate]. destruct (Z.leb_spec 0 y); cbn [negb]; [|discriminate].
  destruct (Z.ltb_spec (x * y) (2 ^ 31)); [|discriminate]. intros E. injection E as <- <- <-. tauto.
Qed.
Lemma setup_line k ints reals j d : drv_setup k ints reals j = FOk d -> drv_line ints j = FOk (ds_line d).
Proof.
  unfold drv_setup. do 5 (destruct (need _); cbn [fbind]; try discriminate). destruct (drv_field k ints reals); cbn [fbind]; try discriminate.
  destruct (drv_line ints j); cbn [fbind]; try discriminate. intros E. injection E as <-. reflexivity.
Qed.

(** Everything a rank leaves behind, for every number of steps, every choice of output frequencies, both solvers.
    [le], [lp], [lf], [ll], [lr]: the steps with energies, particles, fields, line evaluations and lines printed. *)
Theorem C90_run : forall {W} (int1 field int2 : W -> W) en phi grad mean k ints reals junk e d rank ncb (w0 : W),
  drv_setup k ints reals junk = FOk d -> (ds_N d < 2 ^ 31)%Z ->
  let step w := int2 (field (int1 w)) in let after := state_after step w0 in
  exists m le lp lf ll lr, simulate int1 field int2 en phi grad mean k e d rank ncb w0 = FOk m /\
  steps_of (ds_we d) (ds_N d) le /\ steps_of (ds_wp d) (ds_N d) lp /\ steps_of (ds_wf d) (ds_N d) lf /\ steps_of (ds_pr d) (ds_N d) lr /\
  match ds_line d with Some (f, _, _) => steps_of f (ds_N d) ll | None => ll = [] end /\
  sm_w m = Nat.iter (Z.to_nat (ds_N d)) step w0 /\
  (if Z.eqb rank 0 && (Z.ltb 0 (ds_we d) || Z.ltb 0 (ds_wp d)) then
     exists f, sm_file m = Some f /\ w_open f = false /\ w_global f = drv_globals k e d /\
       w_steps f = map (fun s => (s, [("field_energy", HReal (en FE (after s))); ("kinetic_energy", HReal (en KE (after s))); ("potential_energy", HReal (en PE (after s)))])) le
   else sm_file m = None)%bool /\
  sm_traj m = map after lp /\
  sm_vtu m = flat_map (fun s => [("forcing", rank, s, after s); ("potential", rank, s, after s)]) lf /\
  sm_line m = map (fun s => (s, map (fun p => (fst p, phi (after s) (snd p) - mean (after s))) (points e d))) ll /\
  sm_deriv m = map (fun s => (s, map (fun p => (fst p, grad (after s) (snd p))) (points e d))) ll /\
  sm_print m = (if Z.eqb rank 0 then map (fun s => (s, if Z.ltb 0 (ds_we d) then Some (let t := after (ds_we d * (s / ds_we d))%Z in (en FE t, en KE t, en PE t)) else None)) lr else []) /\
  sm_calls m = flat_map (fun i => map (fun c => (c, Z.of_nat i, after (Z.of_nat i))) (seq 0 ncb)) (seq 0 (Z.to_nat (ds_N d))).
Proof.
  intros W int1 field int2 en phi grad mean k ints reals junk e d rank ncb w0 Hs HN step after.
  destruct (run_inv int1 field int2 en phi grad mean k e d rank ncb w0 (Z.to_nat (ds_N d))) as (m & E & I); [lia|].
  pose proof (setup_line _ _ _ _ _ Hs) as Hl.
  assert (Hcalls : flat_map (calls_of int1 field int2 ncb w0) (upto (Z.to_nat (ds_N d))) =
    flat_map (fun i => map (fun c => (c, Z.of_nat i, after (Z.of_nat i))) (seq 0 ncb)) (seq 0 (Z.to_nat (ds_N d)))).
  { unfold upto. generalize (seq 0 (Z.to_nat (ds_N d))). induction l as [|a l IH]; [reflexivity|]. cbn [map flat_map]. rewrite IH. reflexivity. }
  pose proof (n_file _ _ _ _ _ _ _ _ _ _ _ _ _ _ _ I) as F. unfold file_ok in F.
  assert (Q : exists m', (if has_file d rank then on_file CClose m else FOk m) = FOk m' /\ sm_w m' = sm_w m /\ sm_traj m' = sm_traj m /\ sm_vtu m' = sm_vtu m /\ sm_line m' = sm_line m /\ sm_deriv m' = sm_deriv m /\ sm_print m' = sm_print m /\ sm_calls m' = sm_calls m /\
    (if has_file d rank then exists f, sm_file m' = Some f /\ w_open f = false /\ w_global f = drv_globals k e d /\ w_steps f = map (erec int1 field int2 en w0) (outs (ds_we d) (Z.to_nat (ds_N d))) else sm_file m' = None)).
  { destruct (has_file d rank).
    - destruct F as (f & Ef & O & G & S). unfold on_file. rewrite Ef. cbn [do_call]. unfold w_close. rewrite h5chk_ok. eexists. split; [reflexivity|]. cbn. do 7 (split; [reflexivity|]). eexists. split; [reflexivity|]. cbn. auto.
    - exists m. auto 12. }
  destruct Q as (m' & Em & Q1 & Q2 & Q3 & Q4 & Q5 & Q6 & Q7 & Q8).
  exists m', (outs (ds_we d) (Z.to_nat (ds_N d))), (outs (ds_wp d) (Z.to_nat (ds_N d))), (outs (ds_wf d) (Z.to_nat (ds_N d))), (line_outs d (Z.to_nat (ds_N d))), (outs (ds_pr d) (Z.to_nat (ds_N d))).
  split. { unfold simulate, run_events. rewrite E. cbn [fbind]. exact Em. }
  do 4 (split; [apply outs_steps|]).
  split. { destruct (ds_line d) as [[[f nx] ny]|] eqn:L; [|apply line_outs_none; exact L]. rewrite (line_outs_steps d f nx ny _ L); [apply outs_steps|]. apply (drv_line_step _ _ _ _ _ Hl). }
  split; [rewrite Q1; apply (n_w _ _ _ _ _ _ _ _ _ _ _ _ _ _ _ I)|].
  split; [exact Q8|].
  split; [rewrite Q2; apply (n_traj _ _ _ _ _ _ _ _ _ _ _ _ _ _ _ I)|].
  split; [rewrite Q3; apply (n_vtu _ _ _ _ _ _ _ _ _ _ _ _ _ _ _ I)|].
  split; [rewrite Q4; apply (n_line _ _ _ _ _ _ _ _ _ _ _ _ _ _ _ I)|].
  split; [rewrite Q5; apply (n_deriv _ _ _ _ _ _ _ _ _ _ _ _ _ _ _ I)|].
  split; [rewrite Q6; apply (n_print _ _ _ _ _ _ _ _ _ _ _ _ _ _ _ I)|].
  rewrite Q7, <- Hcalls. apply (n_calls _ _ _ _ _ _ _ _ _ _ _ _ _ _ _ I).
Qed.

(** The calls that need every rank are made by every rank, the same ones in the same order: no rank waits for ever. *)
Theorem C90_collective : forall k d r1 r2 ncb,
  let everyone e := match e with EInt1 | EField | EInt2 | EParticles | EForcing _ | EPotential _ | ECompute _ | ELine _ | EDeriv _ | ECall _ _ => true
                    | EStart _ | EValue _ _ | EEnd | EPrint _ => false end in
  filter everyone (run_events k d r1 ncb) = filter everyone (run_events k d r2 ncb).
Proof.
  intros k d r1 r2 ncb everyone. unfold run_events. generalize (seq 0 (Z.to_nat (ds_N d))). induction l as [|i l IH]; [reflexivity|]. cbn [flat_map]. rewrite !filter_app, IH. f_equal.
  unfold step_events. rewrite !filter_app. f_equal. f_equal. f_equal. f_equal; [|f_equal; f_equal].
  - destruct (due (ds_we d) (Z.of_nat i)); [|reflexivity]. rewrite !filter_app. f_equal. destruct (has_file d r1), (has_file d r2); reflexivity.
  - destruct (due (ds_pr d) (Z.of_nat i)); cbn [andb]; [|reflexivity]. destruct (Z.eqb r1 0), (Z.eqb r2 0); reflexivity.
Qed.

(** The energies on the line printed for a step are those of that step only if it is an energy step. *)
Theorem C90_printed_energies_refuted : exists d (m : sim nat), simulate S (fun w => w) (fun w => w) (fun _ w => INR w) (fun _ _ => 0) (fun _ _ => (0, 0)) (fun _ => 0)
    TwoStream {| en_Lx := 1; en_Ly := 1; en_q := 1; en_m := 1; en_w := 1; en_ox := 0; en_oy := 0 |} d 0 0 0%nat = FOk m /\
  exists x, In (1%Z, Some (x, x, x)) (sm_print m) /\ x <> INR (state_after S 0%nat 1).
Proof.
  set (d := mkDS 2 0 0 2 1 (0, 0, 0) 0 1 None). exists d.
  set (ints := fun s => if String.eqb s "particle_num_time_steps" then Some 2%Z else if String.eqb s "particle_num_write_particle_steps" then Some 0%Z else
    if String.eqb s "particle_num_write_field_steps" then Some 0%Z else if String.eqb s "particle_num_write_field_energy_steps" then Some 2%Z else if String.eqb s "particle_num_print_steps" then Some 1%Z else None).
  destruct (C90_run S (fun w => w) (fun w => w) (fun _ w => INR w) (fun _ _ => 0) (fun _ _ => (0, 0)) (fun _ => 0) TwoStream ints (fun _ => None) 0%Z {| en_Lx := 1; en_Ly := 1; en_q := 1; en_m := 1; en_w := 1; en_ox := 0; en_oy := 0 |} d 0%Z 0%nat 0%nat)
    as (m & le & lp & lf & ll & lr & E & _ & _ & _ & [_ Hr] & _ & _ & _ & _ & _ & _ & _ & P & _); [reflexivity|cbn; lia|].
  exists m. split; [exact E|]. exists 1. split.
  - cbn [Z.eqb] in P. rewrite P. apply in_map_iff. exists 1%Z. split; [reflexivity|]. apply Hr. cbn [ds_pr ds_N d]. split; [lia|]. split; [lia|]. apply Z.divide_1_l.
  - change (state_after S 0%nat 1) with 2%nat. change (INR 2) with (1 + 1). intros H. lra.
Qed.

(** The five numbers of steps have to be given, and, for the Bernstein solver, the three components of B. *)
Theorem C90_setup_required : forall k ints reals junk s,
  (ints s = None /\ In s ["particle_num_time_steps"; "particle_num_write_particle_steps"; "particle_num_write_field_steps"; "particle_num_write_field_energy_steps"; "particle_num_print_steps"]) \/
  (reals s = None /\ k = Bernstein /\ In s ["particle_B_x"; "particle_B_y"; "particle_B_z"]) -> drv_setup k ints reals junk = FThrow.
Proof.
  intros k ints reals junk s [[H Hi]|(H & -> & Hi)]; unfold drv_setup.
  - cbn in Hi. repeat (destruct Hi as [<-|Hi]; [rewrite H; cbn [need fbind]; repeat (match goal with |- context [need (ints ?x)] => destruct (ints x); cbn [need fbind]; [|reflexivity] end); reflexivity|]). contradiction.
  - do 5 (match goal with |- context [need (ints ?x)] => destruct (ints x); cbn [need fbind]; [|reflexivity] end).
    assert (E : drv_field Bernstein ints reals = FThrow); [|rewrite E; reflexivity]. unfold drv_field. cbn in Hi.
    repeat (destruct Hi as [<-|Hi]; [rewrite H; repeat (match goal with |- context [need (reals ?x)] => destruct (reals x); cbn [need fbind]; [|reflexivity] end); reflexivity|]). contradiction.
Qed.
(** With them the settings are those of the session; the defaults are B = 0, rescale 1, integrator 0 without a magnetic field and 1 with one. *)
Theorem C90_setup_values : forall k ints reals junk d, drv_setup k ints reals junk = FOk d ->
  ints "particle_num_time_steps" = Some (ds_N d) /\ ints "particle_num_write_particle_steps" = Some (ds_wp d) /\ ints "particle_num_write_field_steps" = Some (ds_wf d) /\
  ints "particle_num_write_field_energy_steps" = Some (ds_we d) /\ ints "particle_num_print_steps" = Some (ds_pr d) /\
  match reals "particle_E_rescale" with Some c => ds_coef d = c | None => ds_coef d = 1 end /\
  (let v s := match reals s with Some b => b | None => 0 end in
   match k with
   | TwoStream => ds_B d = (v "particle_B_x_magnitude", v "particle_B_y_magnitude", v "particle_B_z_magnitude") /\
       match ints "particle_integrator_type" with Some t => ds_type d = t
       | None => ds_type d = 0%Z \/ ds_type d = 1%Z end /\
       (ints "particle_integrator_type" = None -> (ds_type d = 0%Z <-> reals "particle_B_x_magnitude" = None /\ reals "particle_B_y_magnitude" = None /\ reals "particle_B_z_magnitude" = None))
   | Bernstein => ds_B d = (v "particle_B_x", v "particle_B_y", v "particle_B_z") /\ ds_type d = 1%Z
   end) /\
  (forall f nx ny, ds_line d = Some (f, nx, ny) <-> (0 < f)%Z /\ ints "line_field_deriv_evaluations_step" = Some f /\ ints "line_field_deriv_evaluations_numx" = Some nx /\ ints "line_field_deriv_evaluations_numy" = Some ny).
Proof.
  intros k ints reals junk d H. pose proof (setup_line _ _ _ _ _ H) as L.
  assert (Lq : forall f nx ny, ds_line d = Some (f, nx, ny) <-> (0 < f)%Z /\ ints "line_field_deriv_evaluations_step" = Some f /\ ints "line_field_deriv_evaluations_numx" = Some nx /\ ints "line_field_deriv_evaluations_numy" = Some ny).
  { intros f nx ny. split.
    - intros E. rewrite E in L. apply drv_line_step in L. tauto.
    - intros (Hf & E1 & E2 & E3). unfold drv_line in L. rewrite E1, E2, E3 in L. cbn [defd need fbind andb fst snd] in L. replace (Z.ltb 0 f) with true in L by (symmetry; apply Z.ltb_lt; auto).
      destruct (negb _); [discriminate|]. destruct (Z.ltb _ _); [|discriminate]. injection L as L. congruence. }
  unfold drv_setup in H. 
  do 5 (match goal with H : context [need (ints ?x)] |- _ => destruct (ints x) eqn:?; cbn [need fbind] in H; [|discriminate H] end).
  destruct (drv_field k ints reals) as [[B t]| | |] eqn:F; cbn [fbind] in H; try discriminate. destruct (drv_line ints junk) as [l| | |]; cbn [fbind] in H; try discriminate. injection H as <-.
  cbn [ds_N ds_wp ds_wf ds_we ds_pr ds_B ds_type ds_coef ds_line fst snd] in *. do 5 (split; [reflexivity|]).
  split; [destruct (reals "particle_E_rescale"); reflexivity|]. split; [|exact Lq]. cbv zeta.
  unfold drv_field in F. destruct k.
  - injection F as <- <-. split; [reflexivity|]. unfold dflt, defd. destruct (ints "particle_integrator_type"); [split; [reflexivity|discriminate]|].
    destruct (reals "particle_B_x_magnitude"), (reals "particle_B_y_magnitude"), (reals "particle_B_z_magnitude"); cbn [orb]; (split; [tauto|]); intros _; split; intros; try (repeat split; congruence); try lia; intuition congruence.
  - destruct (reals "particle_B_x"); cbn [need fbind] in F; [|discriminate]. destruct (reals "particle_B_y"); cbn [need fbind] in F; [|discriminate]. destruct (reals "particle_B_z"); cbn [need fbind] in F; [|discriminate].
    injection F as <- <-. auto.
Qed.
(** The member that is read before it is set does not matter. *)
Theorem C90_setup_deterministic : forall k ints reals j j', drv_setup k ints reals j = drv_setup k ints reals j'.
Proof.
  intros k ints reals j j'. assert (E : drv_line ints j = drv_line ints j'); [|unfold drv_setup; rewrite E; reflexivity].
  unfold drv_line. destruct (defd _); reflexivity.
Qed.
(** Negative numbers of evaluation points are refused. *)
Theorem C90_line_negative : forall ints junk f nx ny, ints "line_field_deriv_evaluations_step" = Some f -> ints "line_field_deriv_evaluations_numx" = Some nx -> ints "line_field_deriv_evaluations_numy" = Some ny ->
  (0 < f)%Z -> (nx < 0 \/ ny < 0)%Z -> forall k reals, forall d, drv_setup k ints reals junk <> FOk d.
Proof.
  intros ints junk f nx ny E1 E2 E3 Hf Hn k reals d H. apply setup_line in H. unfold drv_line in H. rewrite E1, E2, E3 in H. cbn [defd need fbind andb fst snd] in H. replace (Z.ltb 0 f) with true in H by (symmetry; apply Z.ltb_lt; auto).
  replace (negb (Z.leb 0 nx && Z.leb 0 ny)) with true in H; [discriminate|]. destruct (Z.leb_spec 0 nx), (Z.leb_spec 0 ny); cbn; auto; lia.
Qed.
(** A product of the two numbers beyond the int range is undefined behaviour. *)
Theorem C90_line_size_refuted : exists ints, forall k junk, drv_setup k ints (fun _ => Some 1) junk = FUB.
Proof.
  exists (fun s => Some 65536%Z). intros k junk. destruct k; reflexivity.
Qed.
(** The magnetic field of the Bernstein solver has no default, although the constructor first prepares one: without
    particle_B_x it throws, where the two stream solver goes on with 0. *)
Theorem C90_bernstein_default_refuted : exists ints, (forall junk, drv_setup Bernstein ints (fun _ => None) junk = FThrow) /\
  exists d, forall junk, drv_setup TwoStream ints (fun _ => None) junk = FOk d /\ ds_B d = (0, 0, 0).
Proof.
  exists (fun s => if String.eqb s "line_field_deriv_evaluations_step" then None else Some 1%Z). split; [reflexivity|].
  exists (mkDS 1 1 1 1 1 (0, 0, 0) 1 1 None). intros junk. split; reflexivity.
Qed.
(** The file of a two stream run does not tell the field: runs with different B_x, B_y have the same global values. *)
Theorem C90_two_stream_field_refuted : forall e, exists ints reals reals' d d', drv_setup TwoStream ints reals 0 = FOk d /\ drv_setup TwoStream ints reals' 0 = FOk d' /\
  ds_B d <> ds_B d' /\ drv_globals TwoStream e d = drv_globals TwoStream e d'.
Proof.
  intros e. exists (fun s => if String.eqb s "line_field_deriv_evaluations_step" then None else Some 1%Z), (fun s => if String.eqb s "particle_B_x_magnitude" then Some 1 else None), (fun s => if String.eqb s "particle_B_x_magnitude" then Some 2 else None).
  exists (mkDS 1 1 1 1 1 (1, 0, 0) 1 1 None), (mkDS 1 1 1 1 1 (2, 0, 0) 1 1 None). split; [reflexivity|]. split; [reflexivity|]. split; [|reflexivity]. cbn. intros H. injection H. lra.
Qed.
(** That of a Bernstein run does: it determines the field and all the other settings it holds. *)
Theorem C90_bernstein_globals : forall e e' d d', drv_globals Bernstein e d = drv_globals Bernstein e' d' ->
  ds_B d = ds_B d' /\ ds_type d = ds_type d' /\ ds_coef d = ds_coef d' /\ en_Lx e = en_Lx e' /\ en_Ly e = en_Ly e' /\ en_q e = en_q e' /\ en_m e = en_m e' /\ en_w e = en_w e'.
Proof. intros e e' d d'. unfold drv_globals. destruct (ds_B d) as [[bx by'] bz], (ds_B d') as [[cx cy] cz]. cbn [app]. intros H. injection H. intros. repeat split; congruence. Qed.

(** The evaluation points: one for every pair of indices, at the centre of the cell of a regular nx by ny grid of the domain. *)
Theorem C90_line_points : forall e d step nx ny, ds_line d = Some (step, nx, ny) -> (0 < nx)%Z -> (0 < ny)%Z -> 0 < en_Lx e -> 0 < en_Ly e ->
  List.length (points e d) = Z.to_nat (nx * ny) /\ NoDup (map fst (points e d)) /\
  (forall i j, (0 <= i < nx)%Z -> (0 <= j < ny)%Z -> exists x y, In ((i, j), (x, y)) (points e d)) /\
  forall i j x y, In ((i, j), (x, y)) (points e d) -> (0 <= i < nx)%Z /\ (0 <= j < ny)%Z /\
    x = en_ox e + en_Lx e * ((2 * IZR i + 1) / (2 * IZR nx)) /\ y = en_oy e + en_Ly e * ((2 * IZR j + 1) / (2 * IZR ny)) /\
    en_ox e < x < en_ox e + en_Lx e /\ en_oy e < y < en_oy e + en_Ly e.
Proof.
  intros e d step nx ny Hd Hx Hy Lx Ly. unfold points. rewrite Hd. unfold line_points. set (a := seq 0 (Z.to_nat nx)). set (b := seq 0 (Z.to_nat ny)).
  assert (FR : forall n i L, (0 <= i < n)%Z -> 0 < L -> 0 < L * ((2 * IZR i + 1) / (2 * IZR n)) < L).
  { intros n i L Hi HL. assert (0 <= IZR i) by (apply IZR_le; lia). assert (IZR i + 1 <= IZR n) by (rewrite <- plus_IZR; apply IZR_le; lia).
    assert (0 < (2 * IZR i + 1) / (2 * IZR n)) by (apply Rdiv_lt_0_compat; lra). assert ((2 * IZR i + 1) / (2 * IZR n) < 1) by (apply Rmult_lt_reg_r with (2 * IZR n); [lra|]; unfold Rdiv; rewrite Rmult_assoc, Rinv_l by lra; lra).
    split; [apply Rmult_lt_0_compat; auto|]. rewrite <- (Rmult_1_r L) at 2. apply Rmult_lt_compat_l; auto. }
  split; [|split; [|split]].
  - replace (Z.to_nat (nx * ny)) with (List.length a * Z.to_nat ny)%nat by (unfold a; rewrite seq_length; lia). clearbody a.
    induction a as [|p a IH]; [reflexivity|]. cbn [flat_map List.length]. rewrite app_length, IH, map_length. unfold b. rewrite seq_length. reflexivity.
  - assert (NA : NoDup a) by apply seq_NoDup. clearbody a. induction a as [|p a IH]; [constructor|]. cbn [flat_map]. rewrite map_app. inversion NA as [|? ? Hp NA']; subst.
    apply NoDup_app_intro; [| |].
    + rewrite map_map. cbn [fst]. apply FinFun.Injective_map_NoDup; [intros u v E; injection E; lia|apply seq_NoDup].
    + apply IH; exact NA'.
    + intros z Hz Hz'. rewrite map_map in Hz. cbn [fst] in Hz. apply in_map_iff in Hz as (q & <- & Hq). apply in_map_iff in Hz' as (w & Ew & Hw). apply in_flat_map in Hw as (p' & Hp' & Hw). apply in_map_iff in Hw as (q' & <- & Hq').
      cbn [fst] in Ew. injection Ew as E1 E2. apply Hp. replace p with p' by lia. exact Hp'.
  - intros i j Hi Hj. do 2 eexists. apply in_flat_map. exists (Z.to_nat i). split; [apply in_seq; lia|]. apply in_map_iff. exists (Z.to_nat j). split; [|apply in_seq; lia]. rewrite !Z2Nat.id by lia. reflexivity.
  - intros i j x y H. apply in_flat_map in H as (p & Hp & H). apply in_map_iff in H as (q & E & Hq). apply in_seq in Hp, Hq. injection E as <- <- <- <-.
    assert (Hi : (0 <= Z.of_nat p < nx)%Z) by lia. assert (Hj : (0 <= Z.of_nat q < ny)%Z) by lia. split; [exact Hi|]. split; [exact Hj|].
    assert (0 < IZR nx) by (apply IZR_lt; lia). assert (0 < IZR ny) by (apply IZR_lt; lia).
    pose proof (FR nx _ (en_Lx e) Hi Lx). pose proof (FR ny _ (en_Ly e) Hj Ly).
    assert (EX : en_ox e + 1 / 2 * (en_Lx e / IZR nx) + IZR (Z.of_nat p) * (en_Lx e / IZR nx) = en_ox e + en_Lx e * ((2 * IZR (Z.of_nat p) + 1) / (2 * IZR nx))) by (field; lra).
    assert (EY : en_oy e + 1 / 2 * (en_Ly e / IZR ny) + IZR (Z.of_nat q) * (en_Ly e / IZR ny) = en_oy e + en_Ly e * ((2 * IZR (Z.of_nat q) + 1) / (2 * IZR ny))) by (field; lra).
    rewrite EX, EY. split; [reflexivity|]. split; [reflexivity|]. split; lra.
Qed.
(** The potential is known up to a constant: what is written is the same for potentials that differ by one, provided the
    mean is shifted along. *)
Theorem C90_line_shift : forall {W} (int1 field int2 : W -> W) en phi phi' grad mean mean' e d rank s (m m1 : sim W) c,
  (forall p, phi' (sm_w m) p = phi (sm_w m) p + c) -> mean' (sm_w m) = mean (sm_w m) + c ->
  interp int1 field int2 en phi grad mean e d rank (ELine s) m = FOk m1 -> interp int1 field int2 en phi' grad mean' e d rank (ELine s) m = FOk m1.
Proof.
  intros W int1 field int2 en phi phi' grad mean mean' e d rank s m m1 c Hp Hm. cbn [interp]. intros E. rewrite <- E. do 2 f_equal. f_equal. apply map_ext. intros p. f_equal. rewrite Hp, Hm. ring.
Qed.

(** A run of three steps, with energies on every second one: the file of rank 0 has the groups 0 and 2. *)
Example C90_nonvacuous : exists d ints reals (m : sim nat), drv_setup TwoStream ints reals 7 = FOk d /\ (ds_N d < 2 ^ 31)%Z /\
  simulate S (fun w => w) (fun w => w) (fun _ w => INR w) (fun _ _ => 0) (fun _ _ => (0, 0)) (fun _ => 0) TwoStream {| en_Lx := 1; en_Ly := 1; en_q := 1; en_m := 1; en_w := 1; en_ox := 0; en_oy := 0 |} d 0 1 0%nat = FOk m /\
  sm_calls m = [(0%nat, 0%Z, 1%nat); (0%nat, 1%Z, 2%nat); (0%nat, 2%Z, 3%nat)] /\
  exists f, sm_file m = Some f /\ w_steps f = map (fun s => (s, map (fun n => (n, HReal (INR (S (Z.to_nat s))))) ["field_energy"; "kinetic_energy"; "potential_energy"])) [0%Z; 2%Z].
Proof.
  set (d := mkDS 3 1 0 2 1 (0, 0, 0) 0 1 (Some (1, 2, 3)%Z)). exists d.
  set (ints := fun s => if String.eqb s "particle_num_time_steps" then Some 3%Z else if String.eqb s "particle_num_write_particle_steps" then Some 1%Z else
    if String.eqb s "particle_num_write_field_steps" then Some 0%Z else if String.eqb s "particle_num_write_field_energy_steps" then Some 2%Z else if String.eqb s "particle_num_print_steps" then Some 1%Z
    else if String.eqb s "line_field_deriv_evaluations_step" then Some 1%Z else if String.eqb s "line_field_deriv_evaluations_numx" then Some 2%Z else if String.eqb s "line_field_deriv_evaluations_numy" then Some 3%Z else None).
  destruct (C90_run S (fun w => w) (fun w => w) (fun _ w => INR w) (fun _ _ => 0) (fun _ _ => (0, 0)) (fun _ => 0) TwoStream ints (fun _ => None) 7%Z {| en_Lx := 1; en_Ly := 1; en_q := 1; en_m := 1; en_w := 1; en_ox := 0; en_oy := 0 |} d 0%Z 1%nat 0%nat)
    as (m & le & lp & lf & ll & lr & E & Hle & _ & _ & _ & _ & _ & F & _ & _ & _ & _ & _ & C); [reflexivity|cbn; lia|].
  exists ints, (fun _ => None), m. split; [reflexivity|]. split; [cbn; lia|]. split; [exact E|]. split; [exact C|].
  cbn [Z.eqb andb orb Z.ltb Z.compare ds_we d] in F. destruct F as (f & Ef & _ & _ & S). exists f. split; [exact Ef|]. rewrite S.
  replace le with [0%Z; 2%Z]; [reflexivity|]. apply (steps_of_unique 2 3); [|exact Hle]. split; [repeat constructor|]. intros s. cbn [In]. split.
  - intros [<-|[<-|[]]]; (split; [lia|]; split; [lia|]); [exists 0%Z|exists 1%Z]; lia.
  - intros (_ & H & q & Hq). lia.
Qed.
Print Assumptions C90_run.
Print Assumptions C90_collective.
Print Assumptions C90_printed_energies_refuted.
Print Assumptions C90_setup_required.
Print Assumptions C90_setup_values.
Print Assumptions C90_setup_deterministic.
Print Assumptions C90_line_negative.
Print Assumptions C90_line_size_refuted.
Print Assumptions C90_bernstein_default_refuted.
Print Assumptions C90_two_stream_field_refuted.
Print Assumptions C90_bernstein_globals.
Print Assumptions C90_line_points.
Print Assumptions C90_line_shift.
