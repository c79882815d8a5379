From Verif Require Import L_Coord L_Jacobi L_Basis1 L_Basis2.
From Verif Require Import M_Basis S_Basis S_Basis2.
From Coq Require Import Lia Lra.
From Coq Require Import List.
Import ListNotations.
Local Open Scope nat_scope.

Fixpoint nsum (n : nat) (f : nat -> nat) : nat := match n with O => 0 | S m => nsum m f + f m end.
Lemma nsum_ext n f g : (forall i, i < n -> f i = g i) -> nsum n f = nsum n g.
Proof. induction n; cbn; intros H; auto. rewrite IHn, H; auto. Qed.
Lemma nsum_add n f g : nsum n (fun i => f i + g i) = nsum n f + nsum n g.
Proof. induction n; cbn; lia. Qed.
Lemma nsum_scal n k f : nsum n (fun i => k * f i) = k * nsum n f.
Proof. induction n; cbn; lia. Qed.
Lemma nsum_const n k : nsum n (fun _ => k) = n * k.
Proof. induction n; cbn; lia. Qed.
Lemma nsum_shift n f : nsum (S n) f = f 0 + nsum n (fun i => f (S i)).
Proof. induction n; [cbn; lia|]. cbn [nsum] in *. lia. Qed.
Lemma nsum_rev n g : nsum n (fun p => g (n - p)) = nsum n (fun k => g (S k)).
Proof.
  induction n; [auto|]. rewrite nsum_shift. cbn [nsum Nat.sub]. rewrite <- IHn. rewrite Nat.add_comm. f_equal. 
Qed.
Lemma forr_cnt n (body : nat -> nat -> nat) c s : (forall i s, i < n -> body i s = s + c i) -> forr n body s = s + nsum n c.
Proof. induction n; intros H; [cbn; auto|]. rewrite forr_S, IHn, H by (intros; try apply H; lia). cbn. lia. Qed.
Lemma flat_map_len_seq {B} (f : nat -> list B) n : length (flat_map f (seq 0 n)) = nsum n (fun i => length (f i)).
Proof. induction n; [auto|]. rewrite seq_S, flat_map_app, app_length, IHn. cbn [flat_map nsum]. rewrite app_nil_r. auto. Qed.
Lemma idx2_length P n1 : length (idx2 P n1) = nsum P n1.
Proof. unfold idx2. rewrite flat_map_len_seq. apply nsum_ext. intros. rewrite map_length, seq_length. auto. Qed.
Lemma idx3_length P n1 n2 : length (idx3 P n1 n2) = nsum P (fun p => nsum (n1 p) (n2 p)).
Proof.
  unfold idx3. rewrite flat_map_len_seq. apply nsum_ext. intros. rewrite flat_map_len_seq. apply nsum_ext. intros. rewrite map_length, seq_length. auto.
Qed.
(** ** Closed forms *)
Lemma tri_num P : 2 * nsum P (fun p => P - p) = P * (P + 1).
Proof. rewrite (nsum_rev P (fun x => x)). induction P; cbn [nsum]; lia. Qed.
Lemma tet_num P : 6 * nsum P (fun p => nsum (P - p) (fun q => P - p - q)) = P * (P + 1) * (P + 2).
Proof.
  rewrite (nsum_rev P (fun m => nsum m (fun q => m - q))). induction P; [auto|]. cbn [nsum] in *.
  pose proof (tri_num (S P)) as E. cbn [nsum] in E. nia.
Qed.
Lemma pyr_num P : 6 * nsum P (fun p => nsum P (fun q => P - Nat.max p q)) = P * (P + 1) * (2 * P + 1).
Proof.
  induction P; [auto|].
  assert (E : nsum (S P) (fun p => nsum (S P) (fun q => S P - Nat.max p q)) = nsum P (fun p => nsum P (fun q => P - Nat.max p q)) + (P + 1) * (P + 1)).
  { cbn [nsum]. rewrite (nsum_ext P (fun p => nsum P (fun q => S P - Nat.max p q) + (S P - Nat.max p P)) (fun p => nsum P (fun q => P - Nat.max p q) + (P + 1))).
    - rewrite (nsum_add P), nsum_const. rewrite (nsum_ext P (fun q => S P - Nat.max P q) (fun _ => 1)) by (intros; lia). rewrite nsum_const. lia.
    - intros p Hp. rewrite (nsum_ext P (fun q => S P - Nat.max p q) (fun q => (P - Nat.max p q) + 1)) by (intros; lia). rewrite nsum_add, nsum_const. lia. }
  rewrite E. nia.
Qed.
Lemma prism_num P : 2 * nsum P (fun p => nsum P (fun _ => P - p)) = P * P * (P + 1).
Proof.
  rewrite (nsum_ext P _ (fun p => P * (P - p))) by (intros; rewrite nsum_const; auto). rewrite nsum_scal. pose proof (tri_num P) as E.
  set (N := nsum P (fun p => P - p)) in *. replace (2 * (P * N)) with (P * (2 * N)) by ring. rewrite E. ring.
Qed.
(** ** get_total_num_modes *)
Definition blen (b : btype) (P : nat) : nat :=
  match b with ModA => P | ModB => nsum P (fun p => P - p) | ModC => nsum P (fun p => nsum (P - p) (fun q => P - p - q))
  | ModPyrC => nsum P (fun p => nsum P (fun q => P - Nat.max p q)) end.
Lemma total_modes_b_ok b P : total_modes_b b P = blen b P.
Proof.
  destruct b; cbn [total_modes_b blen]; auto.
  - rewrite (forr_cnt P _ (fun p => P - p)); [auto|]. intros. rewrite (forr_cnt _ _ (fun _ => 1)) by (intros; lia). rewrite nsum_const. lia.
  - rewrite (forr_cnt P _ (fun p => nsum (P - p) (fun q => P - p - q))); [auto|]. intros. apply forr_cnt.
    intros. rewrite (forr_cnt _ _ (fun _ => 1)) by (intros; lia). rewrite nsum_const. lia.
  - rewrite (forr_cnt P _ (fun p => nsum P (fun q => P - Nat.max p q))); [auto|]. intros. apply forr_cnt.
    intros. rewrite (forr_cnt _ _ (fun _ => 1)) by (intros; lia). rewrite nsum_const. lia.
Qed.
Lemma eval_lists_length P z : length (listA P z) = blen ModA P /\ length (listB P z) = blen ModB P /\ length (listC P z) = blen ModC P /\ length (listPyrC P z) = blen ModPyrC P.
Proof.
  unfold listA, listB, listC, listPyrC. rewrite !map_length, seq_length, idx2_length, !idx3_length. auto.
Qed.
Definition snum (s : shape) (P : nat) : nat :=
  match s with
  | Tri => nsum P (fun p => P - p) | Quad => P * P | Hex => P * P * P
  | Pyr => nsum P (fun p => nsum P (fun q => P - Nat.max p q)) | Prism => nsum P (fun p => nsum P (fun _ => P - p))
  | Tet => nsum P (fun p => nsum (P - p) (fun q => P - p - q)) end.
Definition ms (s : tms) : nat := snd s.
Lemma forr_cntm {A} n (body : nat -> A -> A) (m : A -> nat) c s : (forall i s, i < n -> m (body i s) = m s + c i) -> m (forr n body s) = m s + nsum n c.
Proof. induction n; intros H; [cbn; auto|]. rewrite forr_S. rewrite H by lia. rewrite IHn by (intros; apply H; lia). cbn. lia. Qed.
Lemma ms_incm s : ms (incm s) = ms s + 1. Proof. destruct s as [[? ?] ?]. cbn. lia. Qed.
Lemma ms_A p s : ms (lambda_A p s) = ms s. Proof. destruct s as [[? ?] ?]. auto. Qed.
Lemma ms_B p q s : ms (lambda_B p q s) = ms s. Proof. destruct s as [[? ?] ?]. auto. Qed.
Lemma ms_C p q r s : ms (lambda_C p q r s) = ms s. Proof. apply ms_B. Qed.
Lemma ms_Pyr p q r s : ms (lambda_PyrC p q r s) = ms s. Proof. destruct s as [[? ?] ?]. auto. Qed.
Lemma total_modes_s_count s P : ms (total_modes_s s P) = snum s P.
Proof.
  destruct s; cbn [total_modes_s snum]; auto.
  - rewrite (forr_cntm P _ ms (fun p => P - p)); [auto|]. intros. rewrite (forr_cntm _ _ ms (fun _ => 1)); [rewrite nsum_const; lia|].
    intros. rewrite ms_incm, ms_B, ms_A. auto.
  - rewrite (forr_cntm P _ ms (fun p => nsum P (fun q => P - Nat.max p q))); [auto|]. intros. apply forr_cntm. intros.
    rewrite (forr_cntm _ _ ms (fun _ => 1)); [rewrite nsum_const; lia|]. intros. rewrite ms_incm, ms_Pyr, !ms_A. auto.
  - rewrite (forr_cntm P _ ms (fun p => nsum P (fun q => P - p))); [auto|]. intros. apply forr_cntm. intros.
    rewrite (forr_cntm _ _ ms (fun _ => 1)); [rewrite nsum_const; lia|]. intros. rewrite ms_incm, ms_B, !ms_A. auto.
  - rewrite (forr_cntm P _ ms (fun p => nsum (P - p) (fun q => P - p - q))); [auto|]. intros. apply forr_cntm. intros.
    rewrite (forr_cntm _ _ ms (fun _ => 1)); [rewrite nsum_const; lia|]. intros. rewrite ms_incm, ms_C, ms_B, !ms_A. auto.
Qed.
(** ** max_alpha *)
Definition al (s : tms) : nat := snd (fst s).
Lemma forr_mono {A} n (body : nat -> A -> A) (m : A -> nat) s : (forall i s, i < n -> m s <= m (body i s)) -> m s <= m (forr n body s).
Proof. induction n; intros H; [cbn; auto|]. rewrite forr_S. etransitivity; [apply IHn; intros; apply H; lia|]. apply H. lia. Qed.
Lemma forr_reach {A} n (body : nat -> A -> A) (m : A -> nat) s k v : k < n -> (forall i s, i < n -> m s <= m (body i s)) ->
  (forall s, v <= m (body k s)) -> v <= m (forr n body s).
Proof.
  induction n; intros Hk Hm Hv; [lia|]. rewrite forr_S. destruct (Nat.eq_dec k n) as [->|Hne]; [apply Hv|].
  etransitivity; [apply IHn; [lia|intros; apply Hm; lia|auto]|]. apply Hm. lia.
Qed.
Lemma al_incm s : al (incm s) = al s. Proof. destruct s as [[? ?] ?]. auto. Qed.
Lemma al_A p s : al (lambda_A p s) = Nat.max (al s) 1. Proof. destruct s as [[? ?] ?]. auto. Qed.
Lemma al_B p q s : al (lambda_B p q s) = Nat.max (al s) (2 * p - 1). Proof. destruct s as [[? ?] ?]. auto. Qed.
Lemma al_C p q r s : al (lambda_C p q r s) = Nat.max (al s) (2 * (p + q) - 1). Proof. apply al_B. Qed.
Lemma al_Pyr p q r s : al (lambda_PyrC p q r s) = Nat.max (Nat.max (Nat.max (Nat.max (al s) (2 * q - 1)) 1) (2 * p - 1)) (2 * p + 2 * q - 3).
Proof. destruct s as [[? ?] ?]. auto. Qed.
Definition alpha_need (s : shape) (P : nat) : nat :=
  match s with Quad | Hex => 1 | Tri | Prism | Tet => 2 * (P - 1) - 1 | Pyr => Nat.max (2 * (P - 1) - 1) (4 * (P - 1) - 3) end.
Lemma total_modes_s_alpha s P : 1 <= P -> alpha_need s P <= al (total_modes_s s P).
Proof.
  intros HP. destruct s; cbn [total_modes_s alpha_need]; auto.
  - apply (forr_reach P _ al _ (P - 1)); [lia| |].
    + intros. apply forr_mono. intros. rewrite al_incm, al_B, al_A. lia.
    + intros. apply (forr_reach _ _ al _ 0); [lia| |]; intros; rewrite al_incm, al_B, al_A; lia.
  - apply (forr_reach P _ al _ (P - 1)); [lia| |].
    + intros. apply forr_mono. intros. apply forr_mono. intros. rewrite al_incm, al_Pyr, !al_A. lia.
    + intros. apply (forr_reach _ _ al _ (P - 1)); [lia| |].
      * intros. apply forr_mono. intros. rewrite al_incm, al_Pyr, !al_A. lia.
      * intros. apply (forr_reach _ _ al _ 0); [lia| |]; intros; rewrite al_incm, al_Pyr, !al_A; lia.
  - apply (forr_reach P _ al _ (P - 1)); [lia| |].
    + intros. apply forr_mono. intros. apply forr_mono. intros. rewrite al_incm, al_B, !al_A. lia.
    + intros. apply (forr_reach _ _ al _ (P - 1)); [lia| |].
      * intros. apply forr_mono. intros. rewrite al_incm, al_B, !al_A. lia.
      * intros. apply (forr_reach _ _ al _ 0); [lia| |]; intros; rewrite al_incm, al_B, !al_A; lia.
  - apply (forr_reach P _ al _ (P - 1)); [lia| |].
    + intros. apply forr_mono. intros. apply forr_mono. intros. rewrite al_incm, al_C, al_B, !al_A. lia.
    + intros. apply (forr_reach _ _ al _ 0); [lia| |].
      * intros. apply forr_mono. intros. rewrite al_incm, al_C, al_B, !al_A. lia.
      * intros. apply (forr_reach _ _ al _ 0); [lia| |]; intros; rewrite al_incm, al_C, al_B, !al_A; lia.
Qed.
(** ** The constructor *)
Lemma shape_eqb_refl s : shape_eqb s s = true. Proof. destruct s; auto. Qed.
Lemma shape_eqb_eq s t : shape_eqb s t = true <-> s = t. Proof. destruct s, t; cbn; split; congruence. Qed.
Lemma tm_set_same m s d v : tm_set m s d v s d = v.
Proof. unfold tm_set. rewrite shape_eqb_refl, Nat.eqb_refl. auto. Qed.
Lemma tm_set_ge m s d v s' d' : m s d <= v -> m s' d' <= tm_set m s d v s' d'.
Proof.
  intros H. unfold tm_set. destruct (shape_eqb s s') eqn:E; cbn [andb]; auto. apply shape_eqb_eq in E. subst s'.
  destruct (Nat.eqb_spec d d') as [->|]; auto.
Qed.
Lemma ctor_dims_ok s base : forall dimx nm0 mn tot mn' tot', ctor_dims s dimx base nm0 mn tot = Some (mn', tot') ->
  mn <= mn' /\ (forall s' d', tot s' d' <= tot' s' d') /\
  (forall d nm tnm, nth_error base d = Some (nm, tnm) -> nm - 1 <= mn' /\ tnm <= tot' s (dimx + d) /\ (dimx + d <> 0 -> nm = nm0)).
Proof.
  induction base as [|[nm tnm] base IH]; intros dimx nm0 mn tot mn' tot' H; cbn [ctor_dims] in H.
  - injection H as <- <-. split; [lia|]. split; [lia|]. intros [|d]; discriminate.
  - destruct (negb (Nat.eqb dimx 0) && negb (Nat.eqb nm0 nm)) eqn:E; [discriminate|]. apply IH in H. destruct H as (H1 & H2 & H3).
    split; [lia|]. split.
    + intros s' d'. etransitivity; [|apply H2]. apply tm_set_ge. lia.
    + intros [|d] nm' tnm' Hn; cbn [nth_error] in Hn.
      * injection Hn as <- <-. rewrite Nat.add_0_r. split; [lia|]. split.
        -- etransitivity; [|apply H2]. rewrite tm_set_same. lia.
        -- intros Hd. apply andb_false_iff in E. destruct E as [E|E]; apply negb_false_iff in E; apply Nat.eqb_eq in E; lia.
      * apply H3 in Hn. rewrite Nat.add_succ_r. rewrite Nat.add_succ_l in Hn. auto.
Qed.
Definition cell_good (st : ctor_st) (e : expansion) : Prop :=
  (forall d nm tnm, nth_error (ex_base e) d = Some (nm, tnm) -> nm = cell_P e /\ nm - 1 <= cs_n st /\ tnm <= cs_tot st (ex_shape e) d) /\
  (1 <= cell_P e -> alpha_need (ex_shape e) (cell_P e) <= cs_alpha st).
Lemma ctor_cell_ok st e st' : ctor_cell (Some st) e = Some st' ->
  cs_n st <= cs_n st' /\ cs_alpha st <= cs_alpha st' /\ (forall s d, cs_tot st s d <= cs_tot st' s d) /\ cs_nummodes st' = cs_nummodes st ++ [cell_P e] /\ cell_good st' e.
Proof.
  unfold ctor_cell. fold (cell_P e). destruct (ctor_dims _ _ _ _ _ _) as [[mn tot]|] eqn:E; [|discriminate].
  destruct (total_modes_s (ex_shape e) (cell_P e)) as [[nt at_] m] eqn:Et. intros H. injection H as <-. cbn [cs_n cs_alpha cs_tot cs_nummodes].
  apply ctor_dims_ok in E. destruct E as (H1 & H2 & H3). split; [lia|]. split; [lia|]. split; [auto|]. split; [auto|].
  unfold cell_good. cbn [cs_n cs_alpha cs_tot]. split.
  - intros d nm tnm Hn. destruct (H3 d nm tnm Hn) as (A & B & C). cbn [Nat.add] in *. split; [|split; [lia|auto]].
    destruct d; [|apply C; lia]. unfold cell_P. destruct (ex_base e) as [|[x y] ?]; [discriminate|]. cbn in Hn. congruence.
  - intros HP. pose proof (total_modes_s_alpha (ex_shape e) (cell_P e) HP) as Hal. rewrite Et in Hal. unfold al in Hal. cbn [fst snd] in Hal. lia.
Qed.
Lemma ctor_none cells : fold_left ctor_cell cells None = None.
Proof. induction cells; auto. Qed.
Lemma ctor_loop_ok cells : forall st st', fold_left ctor_cell cells (Some st) = Some st' ->
  cs_n st <= cs_n st' /\ cs_alpha st <= cs_alpha st' /\ (forall s d, cs_tot st s d <= cs_tot st' s d) /\
  cs_nummodes st' = cs_nummodes st ++ map cell_P cells /\ Forall (cell_good st') cells.
Proof.
  induction cells as [|e cells IH]; intros st st' H; cbn [fold_left] in H.
  - injection H as <-. rewrite app_nil_r. repeat split; auto.
  - destruct (ctor_cell (Some st) e) as [st1|] eqn:E; [|rewrite ctor_none in H; discriminate].
    apply ctor_cell_ok in E. destruct E as (A1 & A2 & A3 & A4 & A5). apply IH in H. destruct H as (B1 & B2 & B3 & B4 & B5).
    split; [lia|]. split; [lia|]. split; [intros; etransitivity; [apply A3|apply B3]|]. split.
    + rewrite B4, A4, <- app_assoc. auto.
    + constructor; [|auto]. destruct A5 as [C1 C2]. split; [|intros; specialize (C2 H); lia].
      intros d nm tnm Hn. apply C1 in Hn. destruct Hn as (? & ? & ?). split; [auto|]. split; [lia|]. etransitivity; [|apply B3]. auto.
Qed.
Lemma ctor_dims_some s base nm0 : forall dimx mn tot, (forall d nm tnm, nth_error base d = Some (nm, tnm) -> dimx + d <> 0 -> nm = nm0) ->
  exists r, ctor_dims s dimx base nm0 mn tot = Some r.
Proof.
  induction base as [|[nm tnm] base IH]; intros dimx mn tot H; cbn [ctor_dims]; [eauto|].
  destruct (Nat.eqb_spec dimx 0) as [->|Hd]; cbn [negb andb].
  - apply IH. intros d nm' tnm' Hn Hd. apply (H (S d) nm' tnm'); auto.
  - assert (E : nm = nm0) by (apply (H 0 nm tnm); cbn; auto; lia). rewrite E, Nat.eqb_refl. cbn [negb].
    apply IH. intros d nm' tnm' Hn _. apply (H (S d) nm' tnm'); auto. lia.
Qed.
Lemma ctor_loop_some cells : (forall e d nm tnm, In e cells -> nth_error (ex_base e) d = Some (nm, tnm) -> nm = cell_P e) ->
  forall st, exists st', fold_left ctor_cell cells (Some st) = Some st'.
Proof.
  induction cells as [|e cells IH]; intros H st; cbn [fold_left]; [eauto|].
  unfold ctor_cell at 2. fold (cell_P e). destruct (ctor_dims_some (ex_shape e) (ex_base e) (cell_P e) 0 (cs_n st) (cs_tot st)) as ((mn & tot) & ->).
  { intros d nm tnm Hn _. apply (H e d nm tnm); cbn; auto. }
  destruct (total_modes_s _ _) as [[? ?] ?]. apply IH. intros. eapply H; eauto. right; auto.
Qed.

(** ** Kernels on the constructor's table: memory safety and output sizes, for every z *)
Lemma Blist_length P z : length (Blist P z) = blen ModB P.
Proof. unfold Blist. rewrite flat_map_len_seq. apply nsum_ext. intros. apply Brow_length. Qed.
Lemma Clist_length P z : length (Clist P z) = blen ModC P.
Proof.
  unfold Clist. rewrite flat_map_len_seq. apply nsum_ext. intros. rewrite flat_map_len_seq. apply nsum_ext. intros. rewrite map_length, seq_length. auto.
Qed.
Lemma Pyrlist_length P z : length (Pyrlist P z) = blen ModPyrC P.
Proof.
  unfold Pyrlist. rewrite flat_map_len_seq. apply nsum_ext. intros. rewrite flat_map_len_seq. apply nsum_ext. intros.
  unfold Pyrrow. rewrite map_length, seq_length. auto.
Qed.
Definition blist (b : btype) (P : nat) (z : R) : list fl :=
  match b with ModA => map Some (listA P z) | ModB => Blist P z | ModC => Clist P z | ModPyrC => Pyrlist P z end.
Lemma blist_length b P z : length (blist b P z) = blen b P.
Proof. destruct b; cbn [blist]; [rewrite map_length; apply eval_lists_length|apply Blist_length|apply Clist_length|apply Pyrlist_length]. Qed.
Lemma blist_ok b P z : (b = ModA \/ z <> 1%R) -> blist b P z = map Some (listb b P z).
Proof.
  intros H. destruct b; cbn [blist listb]; auto; (destruct H as [H|H]; [discriminate|]); [apply Blist_ok|apply Clist_ok|apply Pyrlist_ok]; auto.
Qed.
Lemma eval_b_gen mn ma s b P z : In b (shape_bases s) -> 2 <= P <= mn + 1 -> 1 <= ma -> alpha_need s P <= ma ->
  eval_b (make_table mn ma) b P z = Some (blist b P z).
Proof.
  intros Hb HP H1 H2. destruct b; cbn [eval_b blist].
  - apply mod_A_ok; lia.
  - apply mod_B_gen; try lia. destruct s; cbn [shape_bases alpha_need In] in *; repeat (destruct Hb as [Hb|Hb]; [try discriminate Hb|]); try tauto; lia.
  - apply mod_C_gen; try lia. destruct s; cbn [shape_bases alpha_need In] in *; repeat (destruct Hb as [Hb|Hb]; [try discriminate Hb|]); try tauto; lia.
  - apply mod_PyrC_gen; try lia. destruct s; cbn [shape_bases alpha_need In] in *; repeat (destruct Hb as [Hb|Hb]; [try discriminate Hb|]); try tauto; lia.
Qed.
