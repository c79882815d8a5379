(** C89: the HDF5 writer of the diagnostics. *)
From Verif Require Import M_Writer.
From Coq Require Import ZArith String List Bool Lia.
Import ListNotations.
Open Scope Z_scope.

Section Spec.
  Context {V : Type}.
  (** A step's group written in one go: step_start, its values, step_end. *)
  Definition block_calls (b : Z * list (string * V)) : list (wcall V) :=
    CStart (fst b) :: map (fun e => CValue (fst e) (snd e)) (snd b) ++ [CEnd].
  Definition globals_of (l : list (wcall V)) : list (string * V) :=
    flat_map (fun c => match c with CGlobal k v => [(k, v)] | _ => [] end) l.
  Definition step_call (c : wcall V) : bool := match c with CGlobal _ _ => false | _ => true end.
  (** Of several entries with one key the first counts. *)
  Definition first_wins (l : list (string * V)) : list (string * V) :=
    fold_left (fun acc e => if existsb (fun e' => String.eqb (fst e') (fst e)) acc then acc else acc ++ [e]) l [].
  Definition blocks_ok (blocks : list (Z * list (string * V))) : Prop :=
    NoDup (map fst blocks) /\ (forall b, In b blocks -> 0 <= fst b < 2 ^ 31 - 1 /\ NoDup (map fst (snd b))).
End Spec.

Section Lemmas.
  Context {V : Type}.
  Implicit Types (w : writer V) (g : list (string * V)).
  Lemma h5chk_ok s w : h5chk s w = WOk w.
  Proof. unfold h5chk, as_bool. destruct (s =? 0); reflexivity. Qed.
  Definition set_global g w : writer V := mkW (w_open w) (w_step w) (w_cur w) g (w_steps w).
  Definition map_res (f : writer V -> writer V) (r : wres V) : wres V := match r with WOk w => WOk (f w) | WAbort => WAbort | WUB => WUB end.
  Lemma step_indep c w g : step_call c = true -> do_call (set_global g w) c = map_res (set_global g) (do_call w c).
  Proof.
    destruct c as [k v|s|k v| |]; intros H; try discriminate; unfold do_call.
    - unfold step_start, set_global. cbn [w_open w_step w_steps w_global]. set (st := if Z.ltb (-1) s then s else w_step w). destruct (Z.leb (2 ^ 31 - 1) st); [reflexivity|]. destruct (w_open w && _); reflexivity.
    - unfold write_step, set_global. cbn [w_cur w_steps w_open w_step w_global]. destruct (w_cur w) as [| |s] eqn:Ec; [reflexivity|rewrite !h5chk_ok; cbn; rewrite Ec; reflexivity|].
      destruct (find _ (w_steps w)) as [e|]; [destruct (put k v (snd e))|destruct (put k v [])]; rewrite !h5chk_ok; reflexivity.
    - unfold step_end, set_global. cbn [w_cur w_open w_step w_steps w_global]. destruct (w_cur w) eqn:Ec; rewrite ?h5chk_ok; cbn; rewrite ?Ec; reflexivity.
    - unfold w_close, set_global. rewrite !h5chk_ok. reflexivity.
  Qed.
  Lemma step_keeps_global c w w' : step_call c = true -> do_call w c = WOk w' -> w_global w' = w_global w.
  Proof.
    intros H E. pose proof (step_indep c w (w_global w) H) as S. assert (X : set_global (w_global w) w = w) by (destruct w; reflexivity). rewrite X, E in S. cbn in S. injection S as S. rewrite S. reflexivity.
  Qed.
  Lemma do_calls_fail l : do_calls l (@WUB V) = WUB /\ do_calls l (@WAbort V) = WAbort.
  Proof. split; induction l; auto. Qed.
  Lemma put_wins k v g : fst (put k v g) = if existsb (fun e' => String.eqb (fst e') k) g then g else g ++ [(k, v)].
  Proof. unfold put, has. destruct (existsb _ g); reflexivity. Qed.
  (** the global values and the others do not interfere *)
  Lemma split_calls l : forall w w', (forall c, In c l -> c <> CClose) -> w_open w = true ->
    do_calls (filter step_call l) (WOk w) = WOk w' ->
    do_calls l (WOk w) = WOk (set_global (fold_left (fun acc e => if existsb (fun e' => String.eqb (fst e') (fst e)) acc then acc else acc ++ [e]) (globals_of l) (w_global w)) w').
  Proof.
    induction l as [|c l IH]; intros w w' Hc Ho E.
    - cbn in *. injection E as <-. f_equal. destruct w; reflexivity.
    - assert (Hop : forall w1, step_call c = true -> do_call w c = WOk w1 -> w_open w1 = true).
      { intros w1 Hs E1. pose proof (Hc c (or_introl eq_refl)) as Hne. destruct c as [k v|s|k v| |]; try discriminate; try congruence; unfold do_call in E1.
        - unfold step_start in E1. set (st := if Z.ltb (-1) s then s else w_step w) in E1. destruct (Z.leb (2 ^ 31 - 1) st); [discriminate|]. destruct (w_open w && _); injection E1 as <-; exact Ho.
        - unfold write_step in E1. destruct (w_cur w); [discriminate| |].
          + rewrite h5chk_ok in E1. injection E1 as <-. exact Ho.
          + destruct (find _ (w_steps w)) as [e|]; [destruct (put k v (snd e))|destruct (put k v [])]; rewrite h5chk_ok in E1; injection E1 as <-; exact Ho.
        - unfold step_end in E1. destruct (w_cur w); [discriminate| |]; rewrite h5chk_ok in E1; injection E1 as <-; exact Ho. }
      destruct (step_call c) eqn:Hs.
      + cbn [filter] in E. rewrite Hs in E. change (do_calls (c :: l) (WOk w)) with (do_calls l (do_call w c)). change (do_calls (c :: filter step_call l) (WOk w)) with (do_calls (filter step_call l) (do_call w c)) in E.
        destruct (do_call w c) as [w1| |] eqn:E1; [|rewrite (proj2 (do_calls_fail _)) in E; discriminate|rewrite (proj1 (do_calls_fail _)) in E; discriminate].
        assert (Eg : globals_of (c :: l) = globals_of l) by (destruct c; try discriminate; reflexivity). rewrite Eg.
        rewrite <- (step_keeps_global c w w1 Hs E1). apply IH; auto. intros c' H. apply Hc. now right.
      + destruct c as [k v| | | |]; try discriminate. cbn [filter step_call] in E.
        change (do_calls (CGlobal k v :: l) (WOk w)) with (do_calls l (do_call w (CGlobal k v))).
        assert (E1 : do_call w (CGlobal k v) = WOk (set_global (fst (put k v (w_global w))) w)).
        { cbn [do_call]. unfold write_global. rewrite Ho. destruct (put k v (w_global w)) as [g s]. rewrite h5chk_ok. cbn [fst]. unfold set_global. rewrite Ho. reflexivity. }
        rewrite E1.
        assert (E2 : forall m r g, (forall c, In c m -> step_call c = true) -> do_calls m (map_res (set_global g) r) = map_res (set_global g) (do_calls m r)).
        { induction m as [|c m IHm]; intros r g Hm; [reflexivity|]. destruct r as [wr| |]; [|cbn [map_res]; now rewrite !(proj2 (do_calls_fail _))|cbn [map_res]; now rewrite !(proj1 (do_calls_fail _))].
          change (do_calls m (do_call (set_global g wr) c) = map_res (set_global g) (do_calls m (do_call wr c))).
          rewrite step_indep by (apply Hm; now left). apply IHm. intros c' H. apply Hm. now right. }
        specialize (IH (set_global (fst (put k v (w_global w))) w) (set_global (fst (put k v (w_global w))) w')).
        rewrite IH.
        * f_equal. unfold set_global. cbn [w_open w_step w_cur w_steps w_global]. f_equal. cbn [globals_of flat_map app fold_left]. fold (globals_of l). f_equal. rewrite put_wins. reflexivity.
        * intros c' H. apply Hc. now right.
        * exact Ho.
        * change (WOk (set_global (fst (put k v (w_global w))) w)) with (map_res (set_global (fst (put k v (w_global w)))) (WOk w)).
          rewrite E2 by (intros c H; now apply filter_In in H). rewrite E. reflexivity.
  Qed.
  Lemma find_last (s : Z) (d : list (Z * list (string * V))) g : ~ In s (map fst d) -> find (fun e => Z.eqb (fst e) s) (d ++ [(s, g)]) = Some (s, g).
  Proof.
    induction d as [|e d IH]; intros H; cbn [app find fst]; [now rewrite Z.eqb_refl|]. destruct (Z.eqb_spec (fst e) s) as [E|E]; [exfalso; apply H; now left|]. apply IH. intros Hi. apply H. now right.
  Qed.
  Lemma map_last (s : Z) (d : list (Z * list (string * V))) g g' : ~ In s (map fst d) ->
    map (fun e => if Z.eqb (fst e) s then (fst e, g') else e) (d ++ [(s, g)]) = d ++ [(s, g')].
  Proof.
    intros H. rewrite map_app. cbn [map fst]. rewrite Z.eqb_refl. f_equal. rewrite <- (map_id d) at 2. apply map_ext_in. intros e He. destruct (Z.eqb_spec (fst e) s) as [E|E]; [|reflexivity]. exfalso. apply H. subst. now apply in_map.
  Qed.
  Lemma values_ok s d kv : forall g w, ~ In s (map fst d) -> NoDup (map fst (g ++ kv)) -> w_cur w = HOpen s -> w_steps w = d ++ [(s, g)] ->
    do_calls (map (fun e => CValue (fst e) (snd e)) kv) (WOk w) = WOk (mkW (w_open w) (w_step w) (HOpen s) (w_global w) (d ++ [(s, g ++ kv)])).
  Proof.
    induction kv as [|[k v] kv IH]; intros g w Hs Hn Hc Hw.
    - cbn. rewrite app_nil_r, <- Hw, <- Hc. destruct w; reflexivity.
    - cbn [map fst snd]. match goal with |- do_calls (?c :: ?r) (WOk w) = _ => change (do_calls (c :: r) (WOk w)) with (do_calls r (do_call w c)) end.
      cbn [do_call]. unfold write_step. rewrite Hc, Hw, (find_last s d g Hs). cbn [snd].
      assert (Hk : has k g = false).
      { unfold has. destruct (existsb _ g) eqn:E; [|reflexivity]. apply existsb_exists in E as (e & He & Ek). apply String.eqb_eq in Ek. exfalso.
        rewrite map_app in Hn. cbn [map fst] in Hn. apply NoDup_remove_2 in Hn. apply Hn. apply in_app_iff. left. rewrite <- Ek. now apply in_map. }
      unfold put. rewrite Hk. rewrite h5chk_ok, (map_last s d g _ Hs). rewrite (IH (g ++ [(k, v)])); cbn [w_open w_step w_global w_cur w_steps]; auto.
      + rewrite <- app_assoc. reflexivity.
      + rewrite <- app_assoc. exact Hn.
  Qed.
  Lemma do_calls_app l l' (r : wres V) : do_calls (l ++ l') r = do_calls l' (do_calls l r).
  Proof. apply fold_left_app. Qed.
  Lemma block_done b w : w_open w = true -> 0 <= fst b < 2 ^ 31 - 1 -> ~ In (fst b) (map fst (w_steps w)) -> NoDup (map fst (snd b)) ->
    do_calls (block_calls b) (WOk w) = WOk (mkW true (fst b + 1) HInvalid (w_global w) (w_steps w ++ [b])).
  Proof.
    intros Ho Hb Hn Hk. unfold block_calls. match goal with |- do_calls (?c :: ?r) (WOk w) = _ => change (do_calls (c :: r) (WOk w)) with (do_calls r (do_call w c)) end.
    cbn [do_call]. unfold step_start. rewrite (proj2 (Z.ltb_lt (-1) (fst b))) by lia. rewrite (proj2 (Z.leb_gt (2 ^ 31 - 1) (fst b))) by lia. rewrite Ho.
    assert (E : existsb (fun e => Z.eqb (fst e) (fst b)) (w_steps w) = false).
    { destruct (existsb _ (w_steps w)) eqn:E; [|reflexivity]. apply existsb_exists in E as (e & He & Ee). apply Z.eqb_eq in Ee. exfalso. apply Hn. rewrite <- Ee. now apply in_map. }
    rewrite E. cbn [negb andb]. rewrite do_calls_app. rewrite (values_ok (fst b) (w_steps w) (snd b) []); cbn [w_cur w_steps w_open w_step w_global app]; auto.
    destruct b; reflexivity.
  Qed.
  Lemma blocks_done blocks : forall w, w_open w = true -> NoDup (map fst (w_steps w) ++ map fst blocks) ->
    (forall b, In b blocks -> 0 <= fst b < 2 ^ 31 - 1 /\ NoDup (map fst (snd b))) ->
    exists w', do_calls (flat_map block_calls blocks) (WOk w) = WOk w' /\ w_open w' = true /\ w_steps w' = w_steps w ++ blocks /\ w_global w' = w_global w.
  Proof.
    induction blocks as [|b blocks IH]; intros w Ho Hn Hb; [exists w; cbn; rewrite app_nil_r; auto|].
    cbn [flat_map]. rewrite do_calls_app. destruct (Hb b (or_introl eq_refl)) as [H1 H2]. cbn [map] in Hn. rewrite block_done; auto.
    - set (w1 := mkW _ _ _ _ _). destruct (IH w1) as (w' & E & O & S & G); unfold w1; cbn [w_open w_steps w_global]; auto.
      + rewrite map_app. cbn [map]. rewrite <- app_assoc. exact Hn.
      + intros b' H. apply Hb. now right.
      + exists w'. split; [exact E|]. split; [exact O|]. unfold w1 in S, G. cbn [w_steps w_global] in S, G. rewrite S, G, <- app_assoc. auto.
    - apply NoDup_remove_2 in Hn. intros Hi. apply Hn. apply in_app_iff. now left.
  Qed.
End Lemmas.

(** C89: however the values of the run and the groups of the steps are interleaved, the closed file holds exactly the
    groups written, each under its step with its values in order, and the values of the run (of several with one
    name, the first). *)
Theorem C89_stored : forall (V : Type) (l : list (wcall V)) blocks, filter step_call l = flat_map block_calls blocks -> blocks_ok blocks ->
  exists w, do_calls (l ++ [CClose]) (w_new true) = WOk w /\ w_steps w = blocks /\ w_global w = first_wins (globals_of l) /\ w_open w = false.
Proof.
  intros V l blocks Hf [Hn Hb]. rewrite do_calls_app. unfold w_new. set (w0 := mkW _ _ _ _ _).
  destruct (blocks_done blocks w0 eq_refl Hn Hb) as (w1 & E1 & O1 & S1 & G1). rewrite <- Hf in E1.
  rewrite (split_calls l w0 w1); auto.
  - eexists. split; [cbn; unfold w_close; rewrite h5chk_ok; reflexivity|]. cbn. rewrite S1. auto.
  - intros c Hc ->. assert (H : In (@CClose V) (filter step_call l)) by (apply filter_In; split; auto). rewrite Hf in H. apply in_flat_map in H as (b & _ & H).
    unfold block_calls in H. destruct H as [H|H]; [discriminate|]. apply in_app_iff in H as [H|[H|[]]]; [|discriminate]. apply in_map_iff in H as (e & H & _). discriminate.
Qed.
Print Assumptions C89_stored.
(** C89: with different names nothing is dropped. *)
Theorem C89_first_wins : forall (V : Type) (g : list (string * V)), NoDup (map fst g) -> first_wins g = g.
Proof.
  intros V g Hg.
  assert (G : forall l acc, NoDup (map fst (acc ++ l)) -> fold_left (fun acc e => if existsb (fun e' : string * V => String.eqb (fst e') (fst e)) acc then acc else acc ++ [e]) l acc = acc ++ l).
  { induction l as [|[k v] l IH]; intros acc Hn; [cbn; now rewrite app_nil_r|]. cbn [fold_left fst].
    destruct (existsb (fun e' => String.eqb (fst e') k) acc) eqn:E.
    - exfalso. apply existsb_exists in E as (e & He & Ek). apply String.eqb_eq in Ek. rewrite map_app in Hn. cbn [map fst] in Hn. apply NoDup_remove_2 in Hn. apply Hn. apply in_app_iff. left. rewrite <- Ek. now apply in_map.
    - rewrite IH; rewrite <- app_assoc; [reflexivity|exact Hn]. }
  apply (G g [] Hg).
Qed.
Print Assumptions C89_first_wins.
(** C89: the group of a step is named by the argument if it is not negative, otherwise by one more than the last name;
    the very first group without an argument is named -1. *)
Theorem C89_numbering : forall (V : Type) (w w' : writer V) s, step_start s w = WOk w' ->
  w_step w' = (if Z.ltb s 0 then w_step w else s) + 1 /\ (w_open w = true -> ~ In (w_step w' - 1) (map fst (w_steps w)) -> w_steps w' = w_steps w ++ [(w_step w' - 1, [])]).
Proof.
  intros V w w' s. unfold step_start. assert (E : (if Z.ltb (-1) s then s else w_step w) = (if Z.ltb s 0 then w_step w else s)).
  { destruct (Z.ltb_spec (-1) s), (Z.ltb_spec s 0); auto; lia. }
  rewrite E. set (st := if Z.ltb s 0 then w_step w else s). destruct (Z.leb (2 ^ 31 - 1) st); [discriminate|].
  destruct (w_open w) eqn:Ho; cbn [andb].
  - destruct (existsb (fun e => Z.eqb (fst e) st) (w_steps w)) eqn:Ex; cbn [negb]; intros H; injection H as <-; cbn [w_step w_steps]; split; auto; replace (st + 1 - 1) with st by lia; auto.
    intros _ Hn. exfalso. apply existsb_exists in Ex as (e & He & Ee). apply Z.eqb_eq in Ee. apply Hn. rewrite <- Ee. now apply in_map.
  - intros H; injection H as <-. split; [reflexivity|discriminate].
Qed.
Print Assumptions C89_numbering.
(** C89: "an HDF5 error stops the program" is false: the status is turned into a bool before it is compared with 0, so
    no history of calls stops it; ... *)
Theorem C89_errors_unnoticed_refuted : forall (V : Type) (l : list (wcall V)), do_calls l (w_new true) <> WAbort.
Proof.
  intros V l. unfold w_new. generalize (mkW true (-1) HUnset ([] : list (string * V)) []) as w.
  induction l as [|c l IH]; intros w; [discriminate|]. change (do_calls (c :: l) (WOk w)) with (do_calls l (do_call w c)).
  assert (H : (exists w', do_call w c = WOk w') \/ do_call w c = WUB).
  { destruct c as [k v|s|k v| |]; cbn [do_call].
    - left. unfold write_global. destruct (if w_open w then put k v (w_global w) else (w_global w, -1)) as [g st]. eexists. apply h5chk_ok.
    - unfold step_start. set (st := if Z.ltb (-1) s then s else w_step w). destruct (Z.leb (2 ^ 31 - 1) st); [right; reflexivity|left]. destruct (w_open w && _); eexists; reflexivity.
    - unfold write_step. destruct (w_cur w) as [| |s]; [right; reflexivity|left; eexists; apply h5chk_ok|left].
      destruct (find _ (w_steps w)) as [e|]; [destruct (put k v (snd e))|destruct (put k v [])]; eexists; apply h5chk_ok.
    - unfold step_end. destruct (w_cur w); [right; reflexivity|left; eexists; apply h5chk_ok|left; eexists; apply h5chk_ok].
    - left. eexists. apply h5chk_ok. }
  destruct H as [[w' ->]| ->]; [apply IH|rewrite (proj1 (do_calls_fail l)); discriminate].
Qed.
Print Assumptions C89_errors_unnoticed_refuted.
(** ... values written under a name that exists, under a step that exists, or after closing are lost without notice. *)
Theorem C89_lost_writes_refuted : forall (V : Type) (a b : V), exists w,
  do_calls [CGlobal "q"%string a; CGlobal "q"%string b; CStart 0; CValue "e"%string a; CEnd; CStart 0; CValue "e"%string b; CEnd; CClose; CGlobal "m"%string b] (w_new true) = WOk w /\
  w_global w = [("q"%string, a)] /\ w_steps w = [(0, [("e"%string, a)])].
Proof. intros V a b. exists (mkW false 1 HInvalid [("q"%string, a)] [(0, [("e"%string, a)])]). split; [vm_compute; reflexivity|]. split; reflexivity. Qed.
Print Assumptions C89_lost_writes_refuted.
(** A value of a step before any step was started goes to an uninitialised identifier. *)
Theorem C89_no_step : forall (V : Type) (gs : list (string * V)) k v, do_calls (map (fun e => CGlobal (fst e) (snd e)) gs ++ [CValue k v]) (w_new true) = WUB.
Proof.
  intros V gs k v. unfold w_new. rewrite do_calls_app. assert (H : forall gs w, w_cur w = HUnset -> exists w', do_calls (map (fun e : string * V => CGlobal (fst e) (snd e)) gs) (WOk w) = WOk w' /\ w_cur w' = HUnset).
  { induction gs0 as [|e gs0 IH]; intros w Hc; [exists w; auto|]. cbn [map]. match goal with |- context [do_calls (?c :: ?r) (WOk w)] => change (do_calls (c :: r) (WOk w)) with (do_calls r (do_call w c)) end.
    cbn [do_call]. unfold write_global. destruct (if w_open w then put (fst e) (snd e) (w_global w) else (w_global w, -1)) as [g st]. rewrite h5chk_ok. apply IH. exact Hc. }
  destruct (H gs (mkW true (-1) HUnset [] []) eq_refl) as (w' & -> & Hc). cbn. unfold write_step. rewrite Hc. reflexivity.
Qed.
Print Assumptions C89_no_step.
Example C89_nonvacuous : let l := [CGlobal "a" 1; CStart 0; CValue "x" 2; CGlobal "b" 3; CValue "y" 4; CEnd; CStart 7; CGlobal "a" 9; CEnd]%string in
  let blocks := [(0, [("x", 2); ("y", 4)]); (7, [])]%string in
  filter step_call l = flat_map block_calls blocks /\ blocks_ok blocks /\ first_wins (globals_of l) = [("a", 1); ("b", 3)]%string.
Proof.
  cbv zeta. split; [reflexivity|]. split; [|reflexivity]. split.
  - cbn. constructor; [intros [H|[]]; discriminate|]. constructor; [intros []|constructor].
  - intros b [<-|[<-|[]]]; cbn; (split; [lia|]); repeat constructor; cbn; intuition discriminate.
Qed.
