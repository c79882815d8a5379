From Verif Require Import M_Driver P_Writer.
From Coq Require Import Lia ZArith List Bool String Reals FinFun.
Import ListNotations.
Open Scope string_scope.
Open Scope list_scope.
Local Arguments Z.rem : simpl never.
Local Arguments Z.ltb : simpl never.
Local Arguments Z.eqb : simpl never.

Definition upto (n : nat) : list Z := map Z.of_nat (seq 0 n).
Definition outs (f : Z) (n : nat) : list Z := filter (due f) (upto n).
Definition line_outs (d : dset) (n : nat) : list Z := filter (line_due d) (upto n).
Lemma upto_S n : upto (S n) = upto n ++ [Z.of_nat n].
Proof. unfold upto. rewrite seq_S, map_app. reflexivity. Qed.
Lemma filter_upto p n : filter p (upto (S n)) = filter p (upto n) ++ (if p (Z.of_nat n) then [Z.of_nat n] else []).
Proof. rewrite upto_S, filter_app. cbn [filter]. destruct (p (Z.of_nat n)); reflexivity. Qed.
Lemma in_upto n s : In s (upto n) <-> (0 <= s < Z.of_nat n)%Z.
Proof.
  unfold upto. rewrite in_map_iff. split; [intros (k & <- & Hk); apply in_seq in Hk; lia|]. intros H. exists (Z.to_nat s). split; [lia|]. apply in_seq. lia.
Qed.
Lemma nodup_upto n : NoDup (upto n).
Proof. unfold upto. apply Injective_map_NoDup; [intros a b; lia|apply seq_NoDup]. Qed.
Lemma due_spec f s : due f s = true <-> (0 < f)%Z /\ (f | s)%Z.
Proof.
  unfold due. rewrite andb_true_iff, Z.ltb_lt, Z.eqb_eq. split; intros [H1 H2]; split; auto; apply Z.rem_divide; auto; lia.
Qed.

Section Run.
  Context {W : Type} (int1 field int2 : W -> W) (en : which -> W -> R) (phi : W -> R * R -> R) (grad : W -> R * R -> R * R) (mean : W -> R).
  Context (k : solver) (e : denv) (d : dset) (rank : Z) (ncb : nat) (w0 : W).
  Definition stepw (w : W) : W := int2 (field (int1 w)).
  Definition st (n : nat) : W := Nat.iter n stepw w0.
  Notation after s := (st (S (Z.to_nat s))).
  Notation itp := (interp int1 field int2 en phi grad mean e d rank).
  Notation itps := (interps int1 field int2 en phi grad mean e d rank).
  Definition erec (s : Z) : Z * list (string * hval) :=
    (s, [("field_energy", HReal (en FE (after s))); ("kinetic_energy", HReal (en KE (after s))); ("potential_energy", HReal (en PE (after s)))]).
  Definition lastE (n : nat) (q : which) : option R := match rev (outs (ds_we d) n) with [] => None | s :: _ => Some (en q (after s)) end.
  Definition vtu_of (s : Z) : list (string * Z * Z * W) := [("forcing", rank, s, after s); ("potential", rank, s, after s)].
  Definition line_of (s : Z) : Z * list ((Z * Z) * R) := (s, map (fun p => (fst p, phi (after s) (snd p) - mean (after s))%R) (points e d)).
  Definition deriv_of (s : Z) : Z * list ((Z * Z) * (R * R)) := (s, map (fun p => (fst p, grad (after s) (snd p))) (points e d)).
  Definition print_of (s : Z) : Z * option (R * R * R) :=
    (s, if Z.ltb 0 (ds_we d) then Some (let t := after (ds_we d * (s / ds_we d))%Z in (en FE t, en KE t, en PE t)) else None).
  Definition calls_of (s : Z) : list (nat * Z * W) := map (fun c => (c, s, after s)) (seq 0 ncb).
  Definition file_ok (n : nat) (o : option (writer hval)) : Prop :=
    if has_file d rank then exists f, o = Some f /\ w_open f = true /\ w_global f = drv_globals k e d /\ w_steps f = map erec (outs (ds_we d) n) else o = None.
  Record Inv (n : nat) (m : sim W) : Prop := {
    n_w : sm_w m = st n; n_fe : sm_fe m = lastE n FE; n_ke : sm_ke m = lastE n KE; n_pe : sm_pe m = lastE n PE;
    n_file : file_ok n (sm_file m); n_traj : sm_traj m = map (fun s => after s) (outs (ds_wp d) n);
    n_vtu : sm_vtu m = flat_map vtu_of (outs (ds_wf d) n);
    n_line : sm_line m = map line_of (line_outs d n); n_deriv : sm_deriv m = map deriv_of (line_outs d n);
    n_print : sm_print m = if Z.eqb rank 0 then map print_of (outs (ds_pr d) n) else [];
    n_calls : sm_calls m = flat_map calls_of (upto n) }.

  Lemma itps_app l l' r : itps (l ++ l') r = itps l' (itps l r).
  Proof. apply fold_left_app. Qed.
  Lemma after_nat n : after (Z.of_nat n) = stepw (st n).
  Proof. rewrite Nat2Z.id. reflexivity. Qed.
  Lemma calls_seg s m : itps (map (fun c => ECall c s) (seq 0 ncb)) (FOk m) =
    FOk (mkSim (sm_w m) (sm_fe m) (sm_ke m) (sm_pe m) (sm_file m) (sm_traj m) (sm_vtu m) (sm_line m) (sm_deriv m) (sm_print m) (sm_calls m ++ map (fun c => (c, s, sm_w m)) (seq 0 ncb))).
  Proof.
    generalize 0%nat as a. revert m. induction ncb as [|j IH]; intros m a; cbn [seq map]; [cbn; rewrite app_nil_r; destruct m; reflexivity|].
    change (itps (ECall a s :: map (fun c => ECall c s) (seq (S a) j)) (FOk m)) with (itps (map (fun c => ECall c s) (seq (S a) j)) (FOk (add_call a s m))).
    rewrite IH. cbn. rewrite <- app_assoc. reflexivity.
  Qed.
  Lemma file_seg n f x y z : (Z.of_nat n < 2 ^ 31 - 1)%Z -> w_open f = true -> w_steps f = map erec (outs (ds_we d) n) ->
    exists f', do_calls [CStart (Z.of_nat n); CValue "field_energy" x; CValue "kinetic_energy" y; CValue "potential_energy" z; CEnd] (WOk f) = WOk f' /\
      w_open f' = true /\ w_global f' = w_global f /\ w_steps f' = w_steps f ++ [(Z.of_nat n, [("field_energy", x); ("kinetic_energy", y); ("potential_energy", z)])].
  Proof.
    intros Hn Ho Hs. eexists. split; [apply (block_done (Z.of_nat n, [("field_energy", x); ("kinetic_energy", y); ("potential_energy", z)]) f Ho)|].
    - cbn. lia.
    - rewrite Hs, map_map. cbn [fst]. unfold erec. cbn [fst]. rewrite map_id. intros Hi. apply filter_In in Hi as [Hi _]. apply in_upto in Hi. lia.
    - cbn. repeat constructor; cbn; intuition discriminate.
    - cbn. auto.
  Qed.
  Lemma file_events n m f f' x y z : sm_file m = Some f -> sm_fe m = Some x -> sm_ke m = Some y -> sm_pe m = Some z ->
    do_calls [CStart n; CValue "field_energy" (HReal x); CValue "kinetic_energy" (HReal y); CValue "potential_energy" (HReal z); CEnd] (WOk f) = WOk f' ->
    itps [EStart n; EValue "field_energy" FE; EValue "kinetic_energy" KE; EValue "potential_energy" PE; EEnd] (FOk m) = FOk (set_file (Some f') m).
  Proof.
    intros Hf H1 H2 H3. unfold do_calls. cbn [fold_left wbind]. intros E'. unfold interps. cbn [fold_left fbind interp].
    unfold on_file at 1. rewrite Hf.
    destruct (do_call f (CStart n)) as [f1| |]; cbn [wbind] in E'; try discriminate E'. cbn [fbind energy set_file sm_fe]. rewrite H1.
    unfold on_file at 1. cbn [set_file sm_file].
    destruct (do_call f1 _) as [f2| |]; cbn [wbind] in E'; try discriminate E'. cbn [fbind energy set_file sm_ke]. rewrite H2.
    unfold on_file at 1. cbn [set_file sm_file].
    destruct (do_call f2 _) as [f3| |]; cbn [wbind] in E'; try discriminate E'. cbn [fbind energy set_file sm_pe]. rewrite H3.
    unfold on_file at 1. cbn [set_file sm_file].
    destruct (do_call f3 _) as [f4| |]; cbn [wbind] in E'; try discriminate E'. cbn [fbind].
    unfold on_file. cbn [set_file sm_file]. rewrite E'. reflexivity.
  Qed.
  Lemma energy_seg n m : (Z.of_nat n < 2 ^ 31 - 1)%Z -> file_ok n (sm_file m) -> sm_w m = st (S n) ->
    exists f', itps (if due (ds_we d) (Z.of_nat n) then [ECompute FE; ECompute KE; ECompute PE] ++
     (if has_file d rank then [EStart (Z.of_nat n); EValue "field_energy" FE; EValue "kinetic_energy" KE; EValue "potential_energy" PE; EEnd] else []) else []) (FOk m) =
    FOk (mkSim (sm_w m) (if due (ds_we d) (Z.of_nat n) then Some (en FE (sm_w m)) else sm_fe m) (if due (ds_we d) (Z.of_nat n) then Some (en KE (sm_w m)) else sm_ke m) (if due (ds_we d) (Z.of_nat n) then Some (en PE (sm_w m)) else sm_pe m)
      f' (sm_traj m) (sm_vtu m) (sm_line m) (sm_deriv m) (sm_print m) (sm_calls m)) /\ file_ok (S n) f'.
  Proof.
    intros Hn Hf Hw. unfold file_ok in *. unfold outs in *. rewrite filter_upto. fold (outs (ds_we d) n) in *.
    destruct (due (ds_we d) (Z.of_nat n)) eqn:D.
    - destruct (has_file d rank).
      + destruct Hf as (f & Ef & O & G & S).
        destruct (file_seg n f (HReal (en FE (sm_w m))) (HReal (en KE (sm_w m))) (HReal (en PE (sm_w m))) Hn O S) as (f' & E' & O' & G' & S').
        exists (Some f'). split.
        * rewrite itps_app.
          change (itps [ECompute FE; ECompute KE; ECompute PE] (FOk m)) with (FOk (mkSim (sm_w m) (Some (en FE (sm_w m))) (Some (en KE (sm_w m))) (Some (en PE (sm_w m))) (sm_file m) (sm_traj m) (sm_vtu m) (sm_line m) (sm_deriv m) (sm_print m) (sm_calls m))).
          erewrite file_events; [|exact Ef|reflexivity|reflexivity|reflexivity|exact E']. reflexivity.
        * exists f'. split; [reflexivity|]. split; [exact O'|]. split; [congruence|]. rewrite S', S, map_app. cbn [map]. f_equal. unfold erec. rewrite Nat2Z.id, <- Hw. reflexivity.
      + exists (sm_file m). split; [|exact Hf]. reflexivity.
    - exists (sm_file m). split; [destruct m; reflexivity|]. rewrite app_nil_r. exact Hf.
  Qed.
  Lemma lastE_S n q : lastE (S n) q = if due (ds_we d) (Z.of_nat n) then Some (en q (st (S n))) else lastE n q.
  Proof. unfold lastE, outs. rewrite filter_upto. destruct (due (ds_we d) (Z.of_nat n)); [rewrite rev_app_distr; cbn [rev app]; rewrite Nat2Z.id; reflexivity|rewrite app_nil_r; reflexivity]. Qed.
  (** with energy steps the diagnostics hold the energies of the last energy step *)
  Lemma lastE_val n q : (0 < ds_we d)%Z -> lastE (S n) q = Some (en q (after (ds_we d * (Z.of_nat n / ds_we d))%Z)).
  Proof.
    intros Hw. induction n as [|n IH]; rewrite lastE_S.
    - replace (due (ds_we d) (Z.of_nat 0)) with true by (symmetry; apply due_spec; split; [auto|apply Z.divide_0_r]). cbn [Z.of_nat]. rewrite Z.div_0_l, Z.mul_0_r by lia. reflexivity.
    - pose proof (Z.div_mod (Z.of_nat (S n)) (ds_we d) ltac:(lia)) as D. pose proof (Z.mod_pos_bound (Z.of_nat (S n)) (ds_we d) Hw) as B.
      destruct (due (ds_we d) (Z.of_nat (S n))) eqn:E.
      + apply due_spec in E as [_ E]. apply Z.mod_divide in E; [|lia]. do 2 f_equal. f_equal. rewrite <- (Nat2Z.id (S n)) at 1. f_equal. lia.
      + rewrite IH. do 3 f_equal. f_equal. f_equal.
        assert (Z.of_nat (S n) mod ds_we d <> 0)%Z. { intros H. apply Z.mod_divide in H; [|lia]. assert (due (ds_we d) (Z.of_nat (S n)) = true) by (apply due_spec; auto). congruence. }
        symmetry. f_equal. apply (Z.div_unique _ _ _ (Z.of_nat (S n) mod ds_we d - 1)); lia.
  Qed.
  Lemma step_inv n m : (Z.of_nat n < 2 ^ 31 - 1)%Z -> Inv n m ->
    exists m', itps (step_events k d rank ncb (Z.of_nat n)) (FOk m) = FOk m' /\ Inv (S n) m'.
  Proof.
    intros Hn I. unfold step_events. rewrite !itps_app.
    set (m1 := set_w int2 (set_w field (set_w int1 m))). change (itps [EInt1; EField; EInt2] (FOk m)) with (FOk m1).
    assert (W1 : sm_w m1 = st (S n)) by (unfold m1, set_w; cbn; rewrite (n_w n m I); reflexivity).
    set (m2 := mkSim (sm_w m1) (sm_fe m1) (sm_ke m1) (sm_pe m1) (sm_file m1) (sm_traj m1 ++ (if due (ds_wp d) (Z.of_nat n) then [sm_w m1] else [])) (sm_vtu m1) (sm_line m1) (sm_deriv m1) (sm_print m1) (sm_calls m1)).
    replace (itps (if due (ds_wp d) (Z.of_nat n) then [EParticles] else []) (FOk m1)) with (FOk m2) by (unfold m2; destruct (due (ds_wp d) (Z.of_nat n)); cbn; rewrite ?app_nil_r; destruct m; reflexivity).
    set (m3 := mkSim (sm_w m2) (sm_fe m2) (sm_ke m2) (sm_pe m2) (sm_file m2) (sm_traj m2) (sm_vtu m2 ++ (if due (ds_wf d) (Z.of_nat n) then [("forcing", rank, Z.of_nat n, sm_w m2); ("potential", rank, Z.of_nat n, sm_w m2)] else [])) (sm_line m2) (sm_deriv m2) (sm_print m2) (sm_calls m2)).
    replace (itps (if due (ds_wf d) (Z.of_nat n) then [EForcing (Z.of_nat n); EPotential (Z.of_nat n)] else []) (FOk m2)) with (FOk m3).
    2:{ clearbody m2; unfold m3; destruct (due (ds_wf d) (Z.of_nat n)); [unfold interps; cbn [fold_left fbind interp]; unfold add_vtu; cbn [sm_w sm_fe sm_ke sm_pe sm_file sm_traj sm_vtu sm_line sm_deriv sm_print sm_calls]; rewrite <- app_assoc; reflexivity|cbn; rewrite !app_nil_r; destruct m2; reflexivity]. }
    destruct (energy_seg n m3 Hn (n_file n m I) W1) as (f' & E4 & F4). rewrite E4. clear E4. set (m4 := mkSim _ _ _ _ f' _ _ _ _ _ _).
    set (m5 := mkSim (sm_w m4) (sm_fe m4) (sm_ke m4) (sm_pe m4) (sm_file m4) (sm_traj m4) (sm_vtu m4) (sm_line m4 ++ (if line_due d (Z.of_nat n) then [(Z.of_nat n, map (fun p => (fst p, phi (sm_w m4) (snd p) - mean (sm_w m4))%R) (points e d))] else []))
        (sm_deriv m4 ++ (if line_due d (Z.of_nat n) then [(Z.of_nat n, map (fun p => (fst p, grad (sm_w m4) (snd p))) (points e d))] else [])) (sm_print m4) (sm_calls m4)).
    match goal with |- context [itps (if line_due d (Z.of_nat n) then ?a else []) (FOk m4)] => replace (itps (if line_due d (Z.of_nat n) then a else []) (FOk m4)) with (FOk m5) end.
    2:{ unfold m5. destruct (line_due d (Z.of_nat n)); [destruct k; reflexivity|]. rewrite !app_nil_r. destruct m4; reflexivity. }
    set (pr := if (due (ds_pr d) (Z.of_nat n) && Z.eqb rank 0)%bool then [print_of (Z.of_nat n)] else []).
    set (m6 := mkSim (sm_w m5) (sm_fe m5) (sm_ke m5) (sm_pe m5) (sm_file m5) (sm_traj m5) (sm_vtu m5) (sm_line m5) (sm_deriv m5) (sm_print m5 ++ pr) (sm_calls m5)).
    assert (LE : forall q, (0 < ds_we d)%Z -> energy m5 q = Some (en q (after (ds_we d * (Z.of_nat n / ds_we d))%Z))).
    { intros q Hq. rewrite <- lastE_val by exact Hq. rewrite lastE_S. destruct q; cbn [energy sm_fe sm_ke sm_pe m5 m4 m3 m2 m1 set_w sm_w]; destruct (due (ds_we d) (Z.of_nat n)).
      - unfold m1, set_w in W1. cbn in W1. rewrite W1. reflexivity. - apply (n_fe n m I). - unfold m1, set_w in W1. cbn in W1. rewrite W1. reflexivity. - apply (n_ke n m I). - unfold m1, set_w in W1. cbn in W1. rewrite W1. reflexivity. - apply (n_pe n m I). }
    match goal with |- context [itps (if (due (ds_pr d) (Z.of_nat n) && Z.eqb rank 0)%bool then ?a else []) (FOk m5)] => replace (itps (if (due (ds_pr d) (Z.of_nat n) && Z.eqb rank 0)%bool then a else []) (FOk m5)) with (FOk m6) end.
    2:{ unfold m6, pr. destruct (due (ds_pr d) (Z.of_nat n) && Z.eqb rank 0)%bool; [|rewrite app_nil_r; destruct m5; reflexivity].
        unfold interps. cbn [fold_left fbind interp]. unfold printed, print_of. destruct (Z.ltb_spec 0 (ds_we d)) as [Hp|Hp]; [|reflexivity].
        pose proof (LE FE Hp) as A. pose proof (LE KE Hp) as B. pose proof (LE PE Hp) as C. cbn [energy] in A, B, C. rewrite A, B, C. cbn [fbind]. unfold add_print. rewrite A, B, C. reflexivity. }
    rewrite calls_seg. eexists. split; [reflexivity|].
    assert (Wx : sm_w m6 = st (S n)) by exact W1. 
    constructor; cbn [sm_w sm_fe sm_ke sm_pe sm_file sm_traj sm_vtu sm_line sm_deriv sm_print sm_calls].
    - exact Wx.
    - rewrite lastE_S. cbn. change (int2 (field (int1 (sm_w m)))) with (sm_w m1). rewrite W1. destruct (due (ds_we d) (Z.of_nat n)); [reflexivity|apply (n_fe n m I)].
    - rewrite lastE_S. cbn. change (int2 (field (int1 (sm_w m)))) with (sm_w m1). rewrite W1. destruct (due (ds_we d) (Z.of_nat n)); [reflexivity|apply (n_ke n m I)].
    - rewrite lastE_S. cbn. change (int2 (field (int1 (sm_w m)))) with (sm_w m1). rewrite W1. destruct (due (ds_we d) (Z.of_nat n)); [reflexivity|apply (n_pe n m I)].
    - exact F4.
    - unfold outs. rewrite filter_upto, map_app. fold (outs (ds_wp d) n). rewrite <- (n_traj n m I). cbn. change (int2 (field (int1 (sm_w m)))) with (sm_w m1). rewrite W1. destruct (due (ds_wp d) (Z.of_nat n)); [cbn [map]; rewrite Nat2Z.id|]; reflexivity.
    - unfold outs. rewrite filter_upto, flat_map_app. fold (outs (ds_wf d) n). rewrite <- (n_vtu n m I). cbn. change (int2 (field (int1 (sm_w m)))) with (sm_w m1). rewrite W1. destruct (due (ds_wf d) (Z.of_nat n)); [cbn [flat_map app]; unfold vtu_of; rewrite Nat2Z.id|]; reflexivity.
    - unfold line_outs. rewrite filter_upto, map_app. fold (line_outs d n). rewrite <- (n_line n m I). cbn. change (int2 (field (int1 (sm_w m)))) with (sm_w m1). rewrite W1. destruct (line_due d (Z.of_nat n)); [cbn [map]; unfold line_of; rewrite Nat2Z.id|]; reflexivity.
    - unfold line_outs. rewrite filter_upto, map_app. fold (line_outs d n). rewrite <- (n_deriv n m I). cbn. change (int2 (field (int1 (sm_w m)))) with (sm_w m1). rewrite W1. destruct (line_due d (Z.of_nat n)); [cbn [map]; unfold deriv_of; rewrite Nat2Z.id|]; reflexivity.
    - change (sm_print m6) with (sm_print m ++ pr). rewrite (n_print n m I). unfold pr, outs. rewrite filter_upto, map_app. destruct (Z.eqb rank 0); [|rewrite andb_false_r; reflexivity]. rewrite andb_true_r. destruct (due (ds_pr d) (Z.of_nat n)); reflexivity.
    - change (sm_calls m6) with (sm_calls m). rewrite (n_calls n m I), upto_S, flat_map_app. cbn [flat_map]. rewrite app_nil_r. unfold calls_of at 3. rewrite Nat2Z.id, Wx. reflexivity.
  Qed.
  Lemma globals_nodup : NoDup (map fst (drv_globals k e d)).
  Proof. unfold drv_globals. destruct (ds_B d) as [[bx by'] bz]. destruct k; cbn; repeat constructor; cbn; intuition discriminate. Qed.
  Lemma start_inv : exists m, start k e d rank w0 = FOk m /\ Inv 0 m.
  Proof.
    unfold start. destruct (has_file d rank) eqn:Hf.
    - set (l := map (fun g => CGlobal (fst g) (snd g)) (drv_globals k e d)).
      assert (Fl : filter step_call l = []) by (unfold l; induction (drv_globals k e d); auto).
      assert (Gl : globals_of l = drv_globals k e d) by (unfold l, globals_of; induction (drv_globals k e d) as [|[a b] r IH]; [reflexivity|cbn; now rewrite IH]).
      unfold w_new. set (f0 := mkW _ _ _ _ _). rewrite (split_calls l f0 f0); [| |reflexivity|rewrite Fl; reflexivity].
      + eexists. split; [reflexivity|]. rewrite Gl. change (w_global f0) with (@nil (string * hval)).
        match goal with |- context [set_global ?x f0] => change x with (first_wins (drv_globals k e d)) end. rewrite C89_first_wins by apply globals_nodup.
        constructor; cbn [sm_w sm_fe sm_ke sm_pe sm_file sm_traj sm_vtu sm_line sm_deriv sm_print sm_calls]; try reflexivity.
        * unfold file_ok. rewrite Hf. eexists. split; [reflexivity|]. split; [reflexivity|]. split; reflexivity.
        * destruct (Z.eqb rank 0); reflexivity.
      + intros c Hc ->. unfold l in Hc. apply in_map_iff in Hc as (g & H & _). discriminate.
    - eexists. split; [reflexivity|]. constructor; try reflexivity.
      + unfold file_ok. now rewrite Hf.
      + cbn. destruct (Z.eqb rank 0); reflexivity.
  Qed.
  Lemma run_inv n : (Z.of_nat n < 2 ^ 31)%Z -> exists m, itps (flat_map (fun i => step_events k d rank ncb (Z.of_nat i)) (seq 0 n)) (start k e d rank w0) = FOk m /\ Inv n m.
  Proof.
    induction n as [|n IH]; intros Hn; [apply start_inv|]. destruct (IH ltac:(lia)) as (m & E & I). rewrite seq_S, flat_map_app, itps_app, E. cbn [flat_map Nat.add]. rewrite app_nil_r. apply step_inv; [lia|exact I].
  Qed.
End Run.
