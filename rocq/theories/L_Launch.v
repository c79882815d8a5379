(** Lemmas for C97. *)
From Verif Require Import M_Launch S_Launch L_Loop M_Util S_Util L_Util P_Util S_Basis S_Basis2 L_Basis1 L_Basis6.
From Coq Require Import Arith Lia ZArith List.
Import ListNotations.

(** * Order on options and the monotonicity of the loops *)
Definition le_opt {A} (a b : option A) : Prop := forall r, a = Some r -> b = Some r.
Lemma le_refl {A} (a : option A) : le_opt a a.
Proof. intros r H. exact H. Qed.
Lemma le_bind {A B} (a b : option A) (f g : A -> option B) : le_opt a b -> (forall x, le_opt (f x) (g x)) ->
  le_opt (match a with None => None | Some x => f x end) (match b with None => None | Some x => g x end).
Proof. intros H K r. destruct a as [x|]; [|discriminate]. rewrite (H x eq_refl). apply K. Qed.
Lemma le_forr {A} n (f g : nat -> option A -> option A) : (forall i a b, le_opt a b -> le_opt (f i a) (g i b)) ->
  forall a b, le_opt a b -> le_opt (forr n f a) (forr n g b).
Proof. intros H a b K. induction n as [|n IH]; [exact K|]. rewrite !forr_S. apply H. exact IH. Qed.
Definition pre (l m : list fl) : Prop := exists x, m = l ++ x.
Lemma le_rd l m i : pre l m -> le_opt (rd l i) (rd m i).
Proof. intros [x ->] r H. unfold rd in *. rewrite nth_error_app1; [exact H|]. apply nth_error_Some. rewrite H. discriminate. Qed.
Ltac le_step := repeat first
  [ progress intros
  | apply le_refl
  | assumption
  | apply le_rd; assumption
  | apply le_forr
  | match goal with
    | |- le_opt (match (if ?c then _ else _) with _ => _ end) _ => destruct c
    | |- le_opt (let '(_, _) := ?x in _) _ => destruct x
    | |- le_opt (match _ with None => None | Some _ => _ end) _ => apply le_bind
    end ].

Lemma le_evaluate s P dofs l0 l1 l2 m0 m1 m2 : pre l0 m0 -> pre l1 m1 -> pre l2 m2 ->
  le_opt (loop_evaluate s P dofs l0 l1 l2) (loop_evaluate s P dofs m0 m1 m2).
Proof.
  intros H0 H1 H2. destruct s; cbn [loop_evaluate];
    [unfold loop_evaluate_tri | unfold loop_evaluate_quad | unfold loop_evaluate_hex | unfold loop_evaluate_pyr
     | unfold loop_evaluate_prism | unfold loop_evaluate_tet]; cbv zeta; le_step.
Qed.
Lemma le_project s P v l0 l1 l2 m0 m1 m2 : pre l0 m0 -> pre l1 m1 -> pre l2 m2 ->
  le_opt (loop_project s P v l0 l1 l2) (loop_project s P v m0 m1 m2).
Proof.
  intros H0 H1 H2. destruct s; cbn [loop_project];
    [unfold loop_project_tri | unfold loop_project_quad | unfold loop_project_hex | unfold loop_project_pyr
     | unfold loop_project_prism | unfold loop_project_tet]; cbv zeta; le_step.
Qed.

(** * Memory *)
Lemma writes_at_in a l k v : In (k, v) (writes_at a l) <-> exists j, k = (a + j)%nat /\ nth_error l j = Some v.
Proof.
  unfold writes_at. revert a. induction l as [|x r IH]; intros a; cbn.
  - split; [intros [] | intros (j & _ & H); destruct j; discriminate].
  - rewrite IH. split.
    + intros [H | (j & -> & H)]; [injection H as <- <-; exists O; split; [lia | reflexivity]|]. exists (S j). split; [lia | exact H].
    + intros (j & -> & H). destruct j as [|j]; [left; cbn in H; injection H as ->; f_equal; lia|]. right. exists j. split; [lia | exact H].
Qed.
(** Writes to an address none of which differ: the value read is the last one, here the only one. *)
Lemma fold_other {W} (tr : list (W * (nat * fl))) : forall (m : lmem) a, (forall e, In e tr -> fst (snd e) <> a) ->
  fold_left (fun m e => mwrite m (snd e)) tr m a = m a.
Proof.
  induction tr as [|e r IH]; intros m a H; [reflexivity|]. cbn [fold_left]. rewrite IH by (intros; apply H; right; assumption).
  unfold mwrite. destruct (Nat.eqb_spec a (fst (snd e))) as [E|E]; [|reflexivity]. exfalso. apply (H e (or_introl eq_refl)). auto.
Qed.
Lemma fold_value {W} (tr : list (W * (nat * fl))) : forall (m : lmem) a v, (forall e, In e tr -> fst (snd e) = a -> snd (snd e) = v) ->
  (exists e, In e tr /\ fst (snd e) = a) -> fold_left (fun m e => mwrite m (snd e)) tr m a = v.
Proof.
  induction tr as [|e r IH] using rev_ind; intros m a v H (x & I & E); [destruct I|].
  rewrite fold_left_app. cbn [fold_left]. unfold mwrite at 1.
  destruct (Nat.eqb_spec a (fst (snd e))) as [Q|Q].
  - apply H; [apply in_or_app; right; left; reflexivity | auto].
  - apply IH; [intros; apply H; [apply in_or_app; left; assumption | assumption]|].
    apply in_app_or in I. destruct I as [I|[<-|[]]]; [exists x; auto | congruence].
Qed.

(** Sizes: the outputs of the bases fit their spaces. *)
Definition fits (st : ctor_st) (s : shape) (l : list fl * list fl * list fl) : Prop :=
  let '(l0, l1, l2) := l in
  (List.length l0 <= msize st s 0)%nat /\ (List.length l1 <= msize st s 1)%nat /\ (List.length l2 <= msize st s 2)%nat.

Lemma item_write_addr st s lid l k v : fits st s l -> In (k, v) (item_writes st s lid l) ->
  (slab st s lid <= k < slab st s lid + msum st s)%nat.
Proof.
  destruct l as [[l0 l1] l2]. intros (F0 & F1 & F2). unfold item_writes. rewrite !in_app_iff, !writes_at_in.
  unfold space, msum. intros [(j & -> & H) | [(j & -> & H) | (j & -> & H)]];
    (assert (J : (j < List.length l0)%nat \/ (j < List.length l1)%nat \/ (j < List.length l2)%nat) by
       (first [left; apply nth_error_Some; rewrite H; discriminate
              | right; left; apply nth_error_Some; rewrite H; discriminate
              | right; right; apply nth_error_Some; rewrite H; discriminate]));
    pose proof (proj1 (nth_error_Some _ j) (fun E => ltac:(rewrite E in H; discriminate))); lia.
Qed.
Lemma slab_disjoint st s i j k : i <> j -> (slab st s i <= k < slab st s i + msum st s)%nat ->
  ~ (slab st s j <= k < slab st s j + msum st s)%nat.
Proof. unfold slab. intros N H K. destruct (Nat.lt_total i j) as [Q|[Q|Q]]; [nia | contradiction | nia]. Qed.
Lemma slab_in st s L i k : (i < L)%nat -> (slab st s i <= k < slab st s i + msum st s)%nat -> (k < mem_size st s L)%nat.
Proof. unfold slab, mem_size. nia. Qed.

(** Within an item the value at an address of space d is that of its list. *)
Definition list_d (l : list fl * list fl * list fl) (d : nat) : list fl :=
  match d with O => fst (fst l) | 1%nat => snd (fst l) | _ => snd l end.
Lemma item_write_value st s lid l d j v k w : fits st s l -> nth_error (list_d l d) j = Some v -> (d < 3)%nat ->
  In (k, w) (item_writes st s lid l) -> k = (space st s lid d + j)%nat -> w = v.
Proof.
  destruct l as [[l0 l1] l2]. intros (F0 & F1 & F2) Hd Hlt. unfold item_writes. rewrite !in_app_iff, !writes_at_in.
  assert (Hj : (j < List.length (list_d (l0, l1, l2) d))%nat) by (apply nth_error_Some; rewrite Hd; discriminate).
  intros H K.
  destruct H as [(q & E & H) | [(q & E & H) | (q & E & H)]];
    (assert (Q := proj1 (nth_error_Some _ q) (fun E => ltac:(rewrite E in H; discriminate)));
     destruct d as [|[|[|d]]]; [..|lia]; cbn [list_d fst snd space] in *; 
     first [ lia | assert (q = j) by lia; subst q; congruence ]).
Qed.
Lemma item_write_present st s lid l d j v : nth_error (list_d l d) j = Some v -> (d < 3)%nat ->
  In ((space st s lid d + j)%nat, v) (item_writes st s lid l).
Proof.
  destruct l as [[l0 l1] l2]. intros Hd Hlt. unfold item_writes. rewrite !in_app_iff, !writes_at_in.
  destruct d as [|[|[|d]]]; [..|lia]; cbn [list_d fst snd] in Hd; [left | right; left | right; right]; exists j; auto.
Qed.

Lemma done_in {W} i (tr : list (nat * W)) w : In w (done_by i tr) <-> In (i, w) tr.
Proof.
  unfold done_by. rewrite in_map_iff. split.
  - intros ([j x] & <- & H). apply filter_In in H. destruct H as [H E]. cbn in E. apply Nat.eqb_eq in E. cbn in *. subst j. exact H.
  - intros H. exists (i, w). split; [reflexivity|]. apply filter_In. split; [exact H|]. cbn. apply Nat.eqb_refl.
Qed.

Lemma map_seq_list (m : nat -> fl) : forall l a, (forall j v, nth_error l j = Some v -> m (a + j)%nat = v) -> map m (seq a (List.length l)) = l.
Proof.
  induction l as [|x r IH]; intros a H; [reflexivity|]. cbn. f_equal.
  - specialize (H O x eq_refl). rewrite Nat.add_0_r in H. exact H.
  - apply IH. intros j v E. specialize (H (S j) v E). rewrite Nat.add_succ_comm. exact H.
Qed.
(** At any point of an execution where item [i] has finished its writes its spaces hold its values. *)
Lemma spaces_private st s L (ls : nat -> option (list fl * list fl * list fl)) (m0 : lmem) tr i l :
  (forall k x, ls k = Some x -> fits st s x /\ (k < L)%nat) -> ls i = Some l ->
  let prog k := match ls k with Some x => item_writes st s k x | None => [] end in
  execution prog tr -> finished prog tr i ->
  forall d, (d < 3)%nat -> pre (list_d l d) (seen st s L (fold_left (fun m e => mwrite m (snd e)) tr m0) i d).
Proof.
  intros F Hi prog Ex Fin d Hd. destruct (F i l Hi) as [Fi Li].
  assert (Pi : prog i = item_writes st s i l) by (unfold prog; rewrite Hi; reflexivity).
  set (m := fold_left _ tr m0).
  assert (V : forall j v, nth_error (list_d l d) j = Some v -> m (space st s i d + j)%nat = v).
  { intros j v H. unfold m. apply fold_value.
    - intros [k [a w]] I E. cbn [fst snd] in *.
      assert (J : In (a, w) (prog k)). { destruct (Ex k) as [rest R]. rewrite R. apply in_or_app. left. apply done_in. exact I. }
      unfold prog in J. destruct (ls k) as [x|] eqn:Hk; [|destruct J]. destruct (F k x Hk) as [Fk Lk].
      destruct (Nat.eq_dec k i) as [->|N].
      + rewrite Hi in Hk. injection Hk as <-. apply (item_write_value st s i l d j v a w Fi H Hd J E).
      + exfalso. pose proof (item_write_addr _ _ _ _ _ _ Fk J) as A.
        pose proof (item_write_addr _ _ _ _ _ _ Fi (item_write_present st s i l d j v H Hd)) as B. rewrite <- E in B.
        exact (slab_disjoint st s k i a N A B).
    - exists (i, ((space st s i d + j)%nat, v)). split; [|reflexivity]. apply done_in. rewrite Fin, Pi.
      apply item_write_present; assumption. }
  assert (Len : (space st s i d + List.length (list_d l d) <= mem_size st s L)%nat).
  { destruct l as [[l0 l1] l2]. destruct Fi as (F0 & F1 & F2). unfold mem_size, msum.
    destruct d as [|[|[|d]]]; [..|lia]; cbn [space list_d fst snd]; unfold slab, msum; nia. }
  exists (map m (seq (space st s i d + List.length (list_d l d)) (mem_size st s L - (space st s i d + List.length (list_d l d))))).
  unfold seen. replace (mem_size st s L - space st s i d)%nat
    with (List.length (list_d l d) + (mem_size st s L - (space st s i d + List.length (list_d l d))))%nat by lia.
  rewrite seq_app, map_app. f_equal. apply (map_seq_list m). exact V.
Qed.

(** * The outputs of the bases of a handled expansion fit *)
(** Nektar++'s GetTotNumModes agrees with the number of values of the basis. *)
Definition nektar_totals (e : expansion) : Prop :=
  List.length (ex_base e) = List.length (shape_bases (ex_shape e)) /\
  forall d b nm tnm, nth_error (shape_bases (ex_shape e)) d = Some b -> nth_error (ex_base e) d = Some (nm, tnm) ->
    tnm = total_modes_b b nm.
Lemma prepare_fits exps st e eta : handled exps st e -> nektar_totals e ->
  exists l, prepare (ctor_table st) (ex_shape e) (cell_P e) eta = Some l /\ fits st (ex_shape e) l.
Proof.
  intros H [NL NT]. pose proof H as (HC & HI & HP). destruct (ctor_sizes _ _ HC) as [_ SZ].
  assert (NM : forall d nm tnm, nth_error (ex_base e) d = Some (nm, tnm) -> nm = cell_P e).
  { intros d nm tnm E. apply (proj1 (ctor_accepts exps) (ex_intro _ st HC) e d nm tnm HI E). }
  assert (B : forall d b z, nth_error (shape_bases (ex_shape e)) d = Some b ->
     exists out, eval_b (ctor_table st) b (cell_P e) z = Some out /\ (List.length out <= msize st (ex_shape e) d)%nat).
  { intros d b z E. destruct (kernel_defined exps st e b z H (nth_error_In _ _ E)) as (out & O1 & O2). exists out. split; [exact O1|].
    assert (Q : exists p, nth_error (ex_base e) d = Some p).
    { destruct (nth_error (ex_base e) d) as [p|] eqn:K; [exists p; reflexivity|]. apply nth_error_None in K. rewrite NL in K.
      apply nth_error_None in K. congruence. }
    destruct Q as [[nm tnm] Q]. rewrite O2. specialize (SZ e d nm tnm HI Q). rewrite (NT d b nm tnm E Q), (NM d nm tnm Q) in SZ. exact SZ. }
  destruct eta as [[e0 e1] e2]. unfold prepare.
  assert (B2 : shape_bases (ex_shape e) = shape_bases (ex_shape e)) by reflexivity.
  destruct (shape_bases (ex_shape e)) as [|b0 [|b1 [|b2 [|b3 r]]]] eqn:SB;
    try (exfalso; destruct (ex_shape e); discriminate).
  - destruct (B O b0 e0 eq_refl) as (o0 & -> & L0). destruct (B 1%nat b1 e1 eq_refl) as (o1 & -> & L1).
    exists (o0, o1, []). split; [reflexivity|]. cbn. repeat split; [exact L0 | exact L1 | lia].
  - destruct (B O b0 e0 eq_refl) as (o0 & -> & L0). destruct (B 1%nat b1 e1 eq_refl) as (o1 & -> & L1).
    destruct (B 2%nat b2 e2 eq_refl) as (o2 & -> & L2).
    exists (o0, o1, o2). split; [reflexivity|]. cbn. repeat split; [exact L0 | exact L1 | exact L2].
Qed.

(** * Coverage *)
Lemma nrow_max_ge npart c : (nth c npart O <= nrow_max npart)%nat.
Proof. revert c. induction npart as [|x r IH]; intros c; destruct c; cbn; try lia. specialize (IH c). fold (nrow_max r). lia. Qed.
Lemma outer_ge npart L : (0 < L)%nat -> (nrow_max npart <= outer_size npart L)%nat /\ (exists q, outer_size npart L = (q * L)%nat).
Proof.
  intros H. unfold outer_size. destruct (C16_global_size (Z.of_nat (nrow_max npart)) (Z.of_nat L) ltac:(lia) ltac:(lia)) as ((q & Q) & G & _).
  split; [lia|]. exists (Z.to_nat q). rewrite Q. rewrite Z2Nat.inj_mul; [rewrite Nat2Z.id; reflexivity | nia | lia].
Qed.
Lemma shape_eqb_eq a b : shape_eqb a b = true <-> a = b.
Proof. destruct a, b; cbn; split; congruence. Qed.
Lemma in_cells_of shapes s c : In c (cells_of shapes s) <-> nth_error shapes c = Some s.
Proof.
  unfold cells_of. rewrite in_map_iff.
  assert (G : forall (l : list shape) a x t, In (x, t) (combine (seq a (List.length l)) l) <-> (a <= x)%nat /\ nth_error l (x - a) = Some t).
  { induction l as [|y r IH]; intros a x t; cbn.
    - split; [intros []|]. intros [_ H]. destruct (x - a)%nat; discriminate.
    - rewrite IH. split.
      + intros [H | [H1 H2]]; [injection H as <- <-; rewrite Nat.sub_diag; auto|]. split; [lia|].
        replace (x - a)%nat with (S (x - S a)) by lia. exact H2.
      + intros [H1 H2]. destruct (Nat.eq_dec a x) as [->|N]; [left; rewrite Nat.sub_diag in H2; cbn in H2; congruence|].
        right. split; [lia|]. replace (x - a)%nat with (S (x - S a)) in H2 by lia. exact H2. }
  split.
  - intros ([x t] & <- & H). apply filter_In in H. destruct H as [H E]. cbn in *. apply shape_eqb_eq in E. subst t.
    apply G in H. rewrite Nat.sub_0_r in H. apply H.
  - intros H. exists (c, s). split; [reflexivity|]. apply filter_In. split; [apply G; rewrite Nat.sub_0_r; split; [lia|exact H]|].
    cbn. apply shape_eqb_eq. reflexivity.
Qed.
Lemma nodup_cells_of shapes s : NoDup (cells_of shapes s).
Proof.
  unfold cells_of.
  assert (N : NoDup (map fst (combine (seq 0 (List.length shapes)) shapes))).
  { assert (G : forall (l : list shape) a, map fst (combine (seq a (List.length l)) l) = seq a (List.length l)).
    { induction l as [|y r IH]; intros a; cbn; [reflexivity|]. f_equal. apply IH. }
    rewrite G. apply seq_NoDup. }
  induction (combine (seq 0 (List.length shapes)) shapes) as [|y r IH]; cbn; [constructor|]. cbn in N. inversion_clear N.
  destruct (shape_eqb (snd y) s); [|apply IH; assumption]. cbn. constructor; [|apply IH; assumption].
  intros K. apply H. apply in_map_iff in K. destruct K as (z & Z1 & Z2). apply filter_In in Z2. apply in_map_iff. exists z. tauto.
Qed.
Lemma nodup_flat_map {A B} (f : A -> list B) l : NoDup l -> (forall a, In a l -> NoDup (f a)) ->
  (forall a b x, In a l -> In b l -> In x (f a) -> In x (f b) -> a = b) -> NoDup (flat_map f l).
Proof.
  induction l as [|a r IH]; intros N F D; [constructor|]. cbn. inversion_clear N as [|? ? N1 N2].
  assert (G : forall (u v : list B), NoDup u -> NoDup v -> (forall x, In x u -> ~ In x v) -> NoDup (u ++ v)).
  { induction u as [|x u IHu]; intros v Nu Nv Q; [exact Nv|]. cbn. inversion_clear Nu. constructor.
    - rewrite in_app_iff. intros [K|K]; [contradiction|]. exact (Q x (or_introl eq_refl) K).
    - apply IHu; auto. intros y Y. apply Q. right. exact Y. }
  apply G; [apply F; left; reflexivity | apply IH; [exact N2 | intros; apply F; right; assumption | intros b c x Ib Ic X Y; exact (D b c x (or_intror Ib) (or_intror Ic) X Y)] |].
  intros x Hx K. apply in_flat_map in K. destruct K as (b & Ib & Xb).
  pose proof (D a b x (or_introl eq_refl) (or_intror Ib) Hx Xb) as ->. contradiction.
Qed.
Lemma in_launch shapes npart L s c j : (0 < L)%nat ->
  (In (c, j) (launch shapes npart L s) <-> nth_error shapes c = Some s /\ (j < nth c npart O)%nat).
Proof.
  intros HL. unfold launch. rewrite in_flat_map. split.
  - intros (x & Hx & H). apply in_map_iff in H. destruct H as (y & E & H). injection E as -> ->.
    apply in_cells_of in Hx. apply filter_In in H. destruct H as [_ H]. apply Nat.ltb_lt in H. auto.
  - intros [H K]. exists c. split; [apply in_cells_of; exact H|]. apply in_map_iff. exists j. split; [reflexivity|].
    apply filter_In. split; [|apply Nat.ltb_lt; exact K]. apply in_seq.
    pose proof (nrow_max_ge npart c). destruct (outer_ge npart L HL). lia.
Qed.
Lemma nodup_launch shapes npart L s : NoDup (launch shapes npart L s).
Proof.
  unfold launch. apply nodup_flat_map; [apply nodup_cells_of| |].
  - intros c _. apply FinFun.Injective_map_NoDup; [intros x y E; injection E; auto|]. apply NoDup_filter, seq_NoDup.
  - intros a b x _ _ A B. apply in_map_iff in A, B. destruct A as (? & <- & _). destruct B as (? & E & _). injection E. auto.
Qed.
