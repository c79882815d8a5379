(** Proofs about the session reader. *)
From Coq Require Import String.
Open Scope list_scope.
From Verif Require Import M_Reader S_Reader.

Lemma ascii_eqb_refl c : Ascii.eqb c c = true.
Proof. apply Ascii.eqb_refl. Qed.
Lemma ascii_eqb_neq a c : a <> c -> Ascii.eqb a c = false.
Proof. intros H. apply Ascii.eqb_neq. exact H. Qed.

Lemma ffno_spec c s :
  (exists n x t, s = repeat c n ++ x :: t /\ x <> c /\ find_first_not_of c s = Some n) \/
  (s = repeat c (length s) /\ find_first_not_of c s = None).
Proof.
  induction s as [|a s IH]; [right; split; reflexivity|].
  cbn [find_first_not_of]. destruct (Ascii.eqb_spec a c) as [->|Hne].
  - destruct IH as [(n & x & t & E & Hx & F)|[E F]].
    + left. exists (S n), x, t. rewrite F. cbn [repeat app]. rewrite E at 1. auto.
    + right. rewrite F. cbn [length repeat]. rewrite <- E. auto.
  - left. exists O, a, s. auto.
Qed.
Lemma ffno_at c n x t : x <> c -> find_first_not_of c (repeat c n ++ x :: t) = Some n.
Proof.
  intros H. induction n as [|n IH]; cbn [repeat app find_first_not_of].
  - rewrite ascii_eqb_neq by exact H. reflexivity.
  - rewrite ascii_eqb_refl, IH. reflexivity.
Qed.
Lemma flno_spec c s :
  (exists p x m, s = p ++ x :: repeat c m /\ x <> c /\ find_last_not_of c s = Some (length p)) \/
  (s = repeat c (length s) /\ find_last_not_of c s = None).
Proof.
  induction s as [|a s IH]; [right; split; reflexivity|].
  cbn [find_last_not_of]. destruct IH as [(p & x & m & E & Hx & F)|[E F]].
  - left. exists (a :: p), x, m. rewrite F. cbn [length app]. rewrite E at 1. auto.
  - rewrite F. destruct (Ascii.eqb_spec a c) as [->|Hne].
    + right. cbn [length repeat]. rewrite <- E. auto.
    + left. exists [], a, (length s). cbn [app length]. rewrite <- E. auto.
Qed.
Lemma flno_repeat c n : find_last_not_of c (repeat c n) = None.
Proof. induction n as [|n IH]; cbn; [reflexivity|]. rewrite IH, ascii_eqb_refl. reflexivity. Qed.
Lemma flno_at c p x m : x <> c -> find_last_not_of c (p ++ x :: repeat c m) = Some (length p).
Proof.
  intros H. induction p as [|a p IH]; cbn [app find_last_not_of length].
  - rewrite flno_repeat, ascii_eqb_neq by exact H. reflexivity.
  - rewrite IH. reflexivity.
Qed.
Lemma ffo_none c s : ~ In c s -> find_first_of c s = None.
Proof.
  induction s as [|a s IH]; intros H; [reflexivity|]. cbn [find_first_of].
  rewrite ascii_eqb_neq by (intros ->; apply H; left; reflexivity).
  rewrite IH by (intros Hi; apply H; right; exact Hi). reflexivity.
Qed.
Lemma ffo_at c p t : ~ In c p -> find_first_of c (p ++ c :: t) = Some (length p).
Proof.
  induction p as [|a p IH]; intros H; cbn [app find_first_of length].
  - rewrite ascii_eqb_refl. reflexivity.
  - rewrite ascii_eqb_neq by (intros ->; apply H; left; reflexivity).
    rewrite IH by (intros Hi; apply H; right; exact Hi). reflexivity.
Qed.
Lemma ffo_some c s n : find_first_of c s = Some n ->
  exists p t, s = p ++ c :: t /\ ~ In c p /\ length p = n.
Proof.
  revert n. induction s as [|a s IH]; intros n H; cbn [find_first_of] in H; [discriminate|].
  destruct (Ascii.eqb_spec a c) as [->|Hne].
  - injection H as <-. exists [], s. auto.
  - destruct (find_first_of c s) as [k|] eqn:E; cbn in H; [|discriminate]. injection H as <-.
    destruct (IH k eq_refl) as (p & t & -> & Hp & <-).
    exists (a :: p), t. repeat split. intros [H|H]; [congruence|tauto].
Qed.
Lemma flo_none c s : ~ In c s -> find_last_of c s = None.
Proof.
  induction s as [|a s IH]; intros H; [reflexivity|]. cbn [find_last_of].
  rewrite IH by (intros Hi; apply H; right; exact Hi).
  rewrite ascii_eqb_neq by (intros ->; apply H; left; reflexivity). reflexivity.
Qed.
Lemma flo_at c p t : ~ In c t -> find_last_of c (p ++ c :: t) = Some (length p).
Proof.
  intros H. induction p as [|a p IH]; cbn [app find_last_of length].
  - rewrite flo_none, ascii_eqb_refl by exact H. reflexivity.
  - rewrite IH. reflexivity.
Qed.
Lemma flo_some c s n : find_last_of c s = Some n ->
  exists p t, s = p ++ c :: t /\ ~ In c t /\ length p = n.
Proof.
  revert n. induction s as [|a s IH]; intros n H; cbn [find_last_of] in H; [discriminate|].
  destruct (find_last_of c s) as [k|] eqn:E.
  - injection H as <-. destruct (IH k eq_refl) as (p & t & -> & Hp & <-).
    exists (a :: p), t. auto.
  - destruct (Ascii.eqb_spec a c) as [->|Hne]; [|discriminate]. injection H as <-.
    exists [], s. repeat split. intros Hin.
    assert (X : find_last_of c s <> None).
    { clear -Hin. induction s as [|b s IH]; [destruct Hin|]. cbn [find_last_of].
      destruct Hin as [->|Hin].
      - destruct (find_last_of c s); [discriminate|]. rewrite ascii_eqb_refl. discriminate.
      - specialize (IH Hin). destruct (find_last_of c s); [discriminate|congruence]. }
    congruence.
Qed.

Lemma app_split_len {A} (p1 p2 t1 t2 : list A) :
  p1 ++ t1 = p2 ++ t2 -> length p1 = length p2 -> p1 = p2 /\ t1 = t2.
Proof.
  revert p2; induction p1 as [|x p1 IH]; intros [|y p2] H HL; cbn in *; try lia; [auto|].
  injection H as <- H. destruct (IH _ H) as [-> ->]; [lia|auto].
Qed.

Lemma repeat_not_in (c d : ascii) n : c <> d -> ~ In c (repeat d n).
Proof. intros H Hin. apply repeat_spec in Hin. congruence. Qed.
Lemma eqs_sp : eqs <> sp. Proof. discriminate. Qed.

Lemma ffno_app_none c p q : find_first_not_of c p = None ->
  find_first_not_of c (p ++ q) = option_map (Nat.add (length p)) (find_first_not_of c q).
Proof.
  induction p as [|a p IH]; intros H; cbn [app length] in *.
  - destruct (find_first_not_of c q); reflexivity.
  - cbn [find_first_not_of] in *. destruct (Ascii.eqb a c); [|discriminate].
    destruct (find_first_not_of c p); [discriminate|]. rewrite IH by reflexivity.
    destruct (find_first_not_of c q); reflexivity.
Qed.

Lemma firstn_app_exact {A} (p t : list A) n : length p = n -> firstn n (p ++ t) = p.
Proof. intros <-. rewrite firstn_app, Nat.sub_diag, firstn_O, app_nil_r, firstn_all. reflexivity. Qed.
Lemma skipn_app_exact {A} (p t : list A) n : length p = n -> skipn n (p ++ t) = t.
Proof. intros <-. rewrite skipn_app, skipn_all, Nat.sub_diag. reflexivity. Qed.

Lemma trimmed_shape s : trimmed s <->
  (exists x t, s = x :: t /\ x <> sp) /\ (exists q y, s = q ++ [y] /\ y <> sp).
Proof.
  unfold trimmed. split.
  - intros (H1 & H2 & H3). split.
    + destruct s as [|x t]; [congruence|]. exists x, t. split; [reflexivity|].
      intros ->. apply H2. reflexivity.
    + destruct (exists_last H1) as (q & y & ->). exists q, y. split; [reflexivity|].
      intros ->. apply H3. rewrite rev_app_distr. reflexivity.
  - intros [(x & t & -> & Hx) (q & y & E & Hy)]. split; [discriminate|]. split.
    + cbn. congruence.
    + rewrite E, rev_app_distr. cbn. congruence.
Qed.

Lemma substr0 s k : substr s (Some O) (Some k) = Some (firstn k s).
Proof. reflexivity. Qed.

(** Trimming as done on either side. *)
Lemma rtrim_spec s x t : s = x :: t -> x <> sp ->
  exists l m, substr s (Some O) (Some (succ_pos (find_last_not_of sp s))) = Some l /\
    s = l ++ repeat sp m /\ trimmed l.
Proof.
  intros Es Hx. destruct (flno_spec sp s) as [(p & y & m & E & Hy & F)|[E F]].
  - exists (p ++ [y]), m. rewrite F. cbn [succ_pos]. rewrite substr0.
    split; [|split].
    + f_equal. rewrite E at 1.
      change (p ++ y :: repeat sp m) with (p ++ [y] ++ repeat sp m).
      rewrite app_assoc. apply firstn_app_exact. rewrite app_length; cbn; lia.
    + rewrite <- app_assoc. exact E.
    + apply trimmed_shape. split; [|exists p, y; auto].
      subst s. destruct p as [|z p]; cbn in E.
      * injection E as -> _. exists y, []. auto.
      * injection E as -> _. exists z, (p ++ [y]). auto.
  - exfalso. rewrite Es in E. cbn in E. injection E as -> _. congruence.
Qed.

Lemma parse_equals_sound line l r : parse_equals line = Some (l, r) -> is_assignment line l r.
Proof.
  unfold parse_equals. intros H.
  destruct (opt_nat_eqb (find_first_not_of sp line) (find_first_of eqs line)) eqn:E1; [discriminate|].
  destruct (find_first_of eqs line) as [e|] eqn:Ee.
  2:{ destruct (negb _); discriminate. }
  destruct (opt_nat_eqb (Some e) (find_last_of eqs line)) eqn:E2; cbn [negb] in H; [|discriminate].
  destruct (find_last_of eqs line) as [e'|] eqn:El; [|discriminate].
  cbn in E2. apply Nat.eqb_eq in E2. subst e'.
  destruct (ffo_some _ _ _ Ee) as (p & t & Eline & Hp & Lp).
  destruct (flo_some _ _ _ El) as (p' & t' & Eline' & Ht & Lp').
  rewrite Eline in Eline'. destruct (app_split_len _ _ _ _ Eline') as [<- Et]; [lia|].
  injection Et as <-.
  (* left part *)
  destruct (ffno_spec sp p) as [(b & x & p1 & Ep & Hx & Fp)|[Ep Fp]].
  2:{ exfalso. rewrite Eline, ffno_app_none in E1 by exact Fp.
      cbn in E1. rewrite Nat.add_0_r, Lp, Nat.eqb_refl in E1. discriminate. }
  assert (Fl : find_first_not_of sp line = Some b).
  { rewrite Eline, Ep, <- app_assoc. cbn [app]. apply ffno_at, Hx. }
  rewrite Fl in H. cbn [succ_pos] in H.
  assert (S0 : substr line (Some b) (Some (e - b)%nat) = Some (x :: p1)).
  { unfold substr. rewrite Eline, Ep.
    destruct (Nat.ltb_spec (length ((repeat sp b ++ x :: p1) ++ eqs :: t)) b) as [Hlt|_].
    { rewrite !app_length, repeat_length in Hlt. cbn in Hlt. lia. }
    f_equal. rewrite <- app_assoc. rewrite skipn_app_exact by apply repeat_length.
    apply firstn_app_exact. rewrite <- Lp, Ep, app_length, repeat_length. lia. }
  rewrite S0 in H. cbn [bindo] in H.
  destruct (rtrim_spec (x :: p1) x p1 eq_refl Hx) as (l1 & m1 & R1 & Q1 & T1).
  rewrite R1 in H. cbn [bindo] in H.
  assert (S1 : substr line (Some (S e)) None = Some t).
  { unfold substr. rewrite Eline.
    destruct (Nat.ltb_spec (length (p ++ eqs :: t)) (S e)) as [Hlt|_].
    { rewrite app_length in Hlt. cbn in Hlt. lia. }
    f_equal. change (p ++ eqs :: t) with (p ++ [eqs] ++ t). rewrite app_assoc.
    apply skipn_app_exact. rewrite app_length. cbn. lia. }
  rewrite S1 in H. cbn [bindo] in H.
  destruct (ffno_spec sp t) as [(c & y & t1 & Et & Hy & Ft)|[Et Ft]].
  2:{ rewrite Ft in H. discriminate. }
  assert (S2 : substr t (find_first_not_of sp t) None = Some (y :: t1)).
  { rewrite Ft. unfold substr. rewrite Et.
    destruct (Nat.ltb_spec (length (repeat sp c ++ y :: t1)) c) as [Hlt|_].
    { rewrite app_length, repeat_length in Hlt. lia. }
    f_equal. apply skipn_app_exact, repeat_length. }
  rewrite S2 in H. cbn [bindo] in H.
  destruct (rtrim_spec (y :: t1) y t1 eq_refl Hy) as (r1 & m2 & R2 & Q2 & T2).
  rewrite R2 in H. cbn [bindo] in H. injection H as <- <-.
  exists b, m1, c, m2. split; [|split; [exact T1|split; [exact T2|split]]].
  - rewrite Eline, Ep, Et, Q1, Q2. rewrite <- !app_assoc. reflexivity.
  - intros Hin. apply Hp. rewrite Ep, Q1. apply in_or_app; right. apply in_or_app; left. exact Hin.
  - intros Hin. apply Ht. rewrite Et, Q2. apply in_or_app; right. apply in_or_app; left. exact Hin.
Qed.

Lemma rtrim_complete l m : trimmed l ->
  substr (l ++ repeat sp m) (Some O) (Some (succ_pos (find_last_not_of sp (l ++ repeat sp m)))) = Some l.
Proof.
  intros T. apply trimmed_shape in T. destruct T as [_ (q & y & -> & Hy)].
  rewrite <- app_assoc. cbn [app]. rewrite flno_at by exact Hy. cbn [succ_pos]. rewrite substr0.
  f_equal. change (q ++ y :: repeat sp m) with (q ++ [y] ++ repeat sp m).
  rewrite app_assoc. apply firstn_app_exact. rewrite app_length; cbn; lia.
Qed.

Lemma parse_equals_complete line l r : is_assignment line l r -> parse_equals line = Some (l, r).
Proof.
  intros (a & b & c & d & E & Tl & Tr & Nl & Nr).
  set (p := repeat sp a ++ l ++ repeat sp b).
  set (t := repeat sp c ++ r ++ repeat sp d).
  assert (El : line = p ++ eqs :: t) by (subst p t; rewrite E, <- !app_assoc; reflexivity).
  assert (Hp : ~ In eqs p).
  { subst p. rewrite !in_app_iff. intros [H|[H|H]]; [|tauto|]; revert H; apply repeat_not_in, eqs_sp. }
  assert (Ht : ~ In eqs t).
  { subst t. rewrite !in_app_iff. intros [H|[H|H]]; [|tauto|]; revert H; apply repeat_not_in, eqs_sp. }
  unfold parse_equals.
  assert (Fe : find_first_of eqs line = Some (length p)) by (rewrite El; apply ffo_at, Hp).
  assert (Fl : find_last_of eqs line = Some (length p)) by (rewrite El; apply flo_at, Ht).
  pose proof Tl as Tl'. apply trimmed_shape in Tl'. destruct Tl' as [(x & l' & Elx & Hx) _].
  pose proof Tr as Tr'. apply trimmed_shape in Tr'. destruct Tr' as [(y & r' & Ery & Hy) _].
  assert (Fb : find_first_not_of sp line = Some a).
  { rewrite El. subst p. rewrite Elx, <- !app_assoc. cbn [app]. apply ffno_at, Hx. }
  assert (Lp : length p = (a + length l + b)%nat).
  { subst p. rewrite !app_length, !repeat_length. lia. }
  assert (Ll : (1 <= length l)%nat) by (rewrite Elx; cbn; lia).
  rewrite Fe, Fl, Fb. cbn [opt_nat_eqb succ_pos].
  destruct (Nat.eqb_spec a (length p)) as [|_]; [lia|]. rewrite Nat.eqb_refl. cbn [negb].
  assert (S0 : substr line (Some a) (Some (length p - a)%nat) = Some (l ++ repeat sp b)).
  { unfold substr. rewrite El.
    destruct (Nat.ltb_spec (length (p ++ eqs :: t)) a) as [Hlt|_].
    { rewrite app_length in Hlt. lia. }
    f_equal. unfold p at 2. rewrite <- app_assoc. rewrite skipn_app_exact by apply repeat_length.
    apply firstn_app_exact. rewrite app_length, repeat_length. lia. }
  rewrite S0. cbn [bindo]. rewrite rtrim_complete by exact Tl. cbn [bindo].
  assert (S1 : substr line (Some (S (length p))) None = Some t).
  { unfold substr. rewrite El.
    destruct (Nat.ltb_spec (length (p ++ eqs :: t)) (S (length p))) as [Hlt|_].
    { rewrite app_length in Hlt. cbn in Hlt. lia. }
    f_equal. change (p ++ eqs :: t) with (p ++ [eqs] ++ t). rewrite app_assoc.
    apply skipn_app_exact. rewrite app_length. cbn. lia. }
  rewrite S1. cbn [bindo].
  assert (Ft : find_first_not_of sp t = Some c).
  { subst t. rewrite Ery. cbn [app]. apply ffno_at, Hy. }
  rewrite Ft.
  assert (S2 : substr t (Some c) None = Some (r ++ repeat sp d)).
  { unfold substr. destruct (Nat.ltb_spec (length t) c) as [Hlt|_].
    { subst t. rewrite app_length, repeat_length in Hlt. lia. }
    f_equal. subst t. apply skipn_app_exact, repeat_length. }
  rewrite S2. cbn [bindo]. rewrite rtrim_complete by exact Tr. reflexivity.
Qed.

Lemma parse_equals_iff line l r : parse_equals line = Some (l, r) <-> is_assignment line l r.
Proof. split; [apply parse_equals_sound | apply parse_equals_complete]. Qed.

(** ** Maps *)
Lemma str_eqb_eq a b : str_eqb a b = true <-> a = b.
Proof.
  revert b; induction a as [|x a IH]; intros [|y b]; cbn; split; intros H; try discriminate; try reflexivity.
  - apply andb_true_iff in H. destruct H as [H1 H2]. apply Ascii.eqb_eq in H1. apply IH in H2. congruence.
  - injection H as -> ->. rewrite ascii_eqb_refl. apply IH. reflexivity.
Qed.
Lemma sget_sset {V} (m : smap V) k k' v :
  sget (sset m k v) k' = if str_eqb k k' then Some v else sget m k'.
Proof. unfold sget, sset. cbn [find fst]. destruct (str_eqb k k'); reflexivity. Qed.

Lemma upper_char_idem c : to_upper_char (to_upper_char c) = to_upper_char c.
Proof. destruct c as [[] [] [] [] [] [] [] []]; vm_compute; reflexivity. Qed.
Lemma to_upper_idem s : to_upper (to_upper s) = to_upper s.
Proof.
  unfold to_upper. rewrite map_map. apply map_ext. apply upper_char_idem.
Qed.

(** independent characterisation of to_upper *)
Definition asciis : list ascii := map ascii_of_nat (seq 0 256).
Lemma asciis_all c : In c asciis.
Proof.
  unfold asciis. apply in_map_iff. exists (nat_of_ascii c). split; [apply ascii_nat_embedding|]. apply in_seq. pose proof (nat_ascii_bounded c). lia.
Qed.
Definition pair_eqb (x y : ascii * ascii) : bool := Ascii.eqb (fst x) (fst y) && Ascii.eqb (snd x) (snd y).
Lemma pair_eqb_eq x y : pair_eqb x y = true <-> x = y.
Proof. unfold pair_eqb. rewrite andb_true_iff, !Ascii.eqb_eq. destruct x, y; cbn. split; [intros [-> ->]; auto|intros H; injection H; auto]. Qed.
Definition sl_b (a b : ascii) : bool := Ascii.eqb a b || existsb (pair_eqb (a, b)) letters || existsb (pair_eqb (b, a)) letters.
Lemma sl_b_iff a b : sl_b a b = true <-> same_letter a b.
Proof.
  unfold sl_b, same_letter. rewrite !orb_true_iff, Ascii.eqb_eq, !existsb_exists.
  assert (E : forall p, (exists x, In x letters /\ pair_eqb p x = true) <-> In p letters).
  { intros p. split; [intros (x & H & E); apply pair_eqb_eq in E; congruence|intros H; exists p; split; auto; apply pair_eqb_eq; auto]. }
  rewrite !E. tauto.
Qed.
Lemma upper_letter a b : to_upper_char a = to_upper_char b <-> same_letter a b.
Proof.
  rewrite <- sl_b_iff, <- Ascii.eqb_eq.
  assert (H : forallb (fun a => forallb (fun b => Bool.eqb (Ascii.eqb (to_upper_char a) (to_upper_char b)) (sl_b a b)) asciis) asciis = true) by (vm_compute; reflexivity).
  rewrite forallb_forall in H. specialize (H a (asciis_all a)). rewrite forallb_forall in H. specialize (H b (asciis_all b)).
  apply Bool.eqb_prop in H. rewrite H. tauto.
Qed.
Lemma same_name_upper a b : same_name a b <-> to_upper a = to_upper b.
Proof.
  unfold same_name, to_upper. revert b. induction a as [|x a IH]; intros [|y b]; cbn [map]; split; intros H; try solve [inversion H]; auto.
  - inversion H as [|? ? ? ? H1 H2]. subst. f_equal; [apply upper_letter; auto|apply IH; auto].
  - injection H as H1 H2. constructor; [apply upper_letter; auto|apply IH; auto].
Qed.
Lemma no_lower_upper a : no_lower_case a -> to_upper a = a.
Proof.
  intros H. unfold to_upper. rewrite <- (map_id a) at 2. apply map_ext_in. intros c Hc. specialize (H c Hc).
  assert (G : forallb (fun c => existsb (Ascii.eqb c) (map fst letters) || Ascii.eqb (to_upper_char c) c) asciis = true) by (vm_compute; reflexivity).
  rewrite forallb_forall in G. specialize (G c (asciis_all c)). apply orb_true_iff in G. destruct G as [G|G].
  - apply existsb_exists in G. destruct G as (x & Hx & E). apply Ascii.eqb_eq in E. subst. tauto.
  - apply Ascii.eqb_eq. auto.
Qed.

(** get_info / defines_info *)
Lemma get_info_upper m name : to_upper name = name ->
  (defines_info m name = true <-> exists v, get_info m name = Some v).
Proof.
  intros H. unfold defines_info, get_info. rewrite H.
  destruct (sget m name) as [v|]; split; intros X; eauto; try discriminate. destruct X; discriminate.
Qed.

Lemma last_definition_snoc {V} (defs : list (str * V)) n v name w :
  last_definition (defs ++ [(n, v)]) name w <->
  (same_name n name /\ w = v) \/ (~ same_name n name /\ last_definition defs name w).
Proof.
  split.
  - intros (d1 & n' & d2 & E & Hs & Hl).
    destruct d2 as [|z d2] using rev_ind.
    + apply app_inj_tail in E. destruct E as [_ E]. injection E as <- <-. left; auto.
    + clear IHd2. rewrite app_comm_cons, app_assoc in E. apply app_inj_tail in E.
      destruct E as [-> <-]. right. split.
      * apply (Hl n v). apply in_or_app; right; left; reflexivity.
      * exists d1, n', d2. split; [reflexivity|]. split; [exact Hs|].
        intros a b Hin. apply (Hl a b). apply in_or_app; left; exact Hin.
  - intros [[Hs ->]|[Hs (d1 & n' & d2 & -> & Hs' & Hl)]].
    + exists defs, n, []. split; [reflexivity|]. split; [exact Hs|]. intros a b [].
    + exists d1, n', (d2 ++ [(n, v)]). split; [rewrite <- app_assoc; reflexivity|].
      split; [exact Hs'|]. intros a b Hin. apply in_app_or in Hin.
      destruct Hin as [Hin|[E|[]]]; [eapply Hl; exact Hin|]. injection E as <- <-. exact Hs.
Qed.

(** Storing a list of definitions under upper-cased names. *)
Definition store {V} (defs : list (str * V)) (m : smap V) : smap V :=
  fold_left (fun m nv => sset m (to_upper (fst nv)) (snd nv)) defs m.

Lemma store_get {V} (defs : list (str * V)) name w :
  sget (store defs []) (to_upper name) = Some w <-> last_definition defs name w.
Proof.
  revert w. induction defs as [|[n v] defs IH] using rev_ind; intros w.
  - cbn. split; [discriminate|]. intros (d1 & n & d2 & E & _). destruct d1; discriminate.
  - unfold store. rewrite fold_left_app. cbn [fold_left fst snd]. fold (store defs (@nil (str * V))).
    rewrite sget_sset, last_definition_snoc. rewrite same_name_upper.
    destruct (str_eqb (to_upper n) (to_upper name)) eqn:E.
    + apply str_eqb_eq in E. rewrite E. split; [intros H; injection H as <-; auto|].
      intros [[_ ->]|[H _]]; [reflexivity|congruence].
    + assert (E' : to_upper n <> to_upper name).
      { intros X. apply str_eqb_eq in X. congruence. }
      rewrite IH. split; [auto|]. intros [[X _]|[_ X]]; [congruence|exact X].
Qed.

Lemma read_info_store items : forall m m', read_info items m = Some m' ->
  m' = store (info_defs items) m.
Proof.
  induction items as [|[[p|] [v|]] items IH]; intros m m' H; cbn [read_info] in H; try discriminate.
  - injection H as <-. reflexivity.
  - destruct p as [|x p]; [discriminate|]. destruct v as [|y v]; [discriminate|].
    apply IH in H. rewrite H. reflexivity.
Qed.

Lemma read_info_get items m name w :
  read_info items [] = Some m -> to_upper name = name ->
  (get_info m name = Some w <-> last_definition (info_defs items) name w).
Proof.
  intros H Hn. apply read_info_store in H. rewrite H. unfold get_info.
  rewrite <- (store_get (info_defs items) name w), Hn. reflexivity.
Qed.

(** parameters: what was read *)
Section ParamsProof.
  Context {V : Type}.
  Variable eval : smap V -> str -> option V.

  Lemma read_parameters_evaluated lines : forall interp params i' p',
    read_parameters eval lines interp params = Some (i', p') ->
    exists defs, evaluated eval lines interp defs /\ p' = store defs params.
  Proof.
    induction lines as [|line lines IH]; intros interp params i' p' H; cbn [read_parameters] in H.
    - injection H as <- <-. exists []. split; [constructor|reflexivity].
    - destruct (parse_equals line) as [[l r]|] eqn:E; cbn [bindo fst snd] in H; [|discriminate].
      apply parse_equals_iff in E. pose proof E as E'.
      destruct E' as (a & b & c & d & _ & (Tl & _) & (Tr & _) & _).
      destruct l as [|x l]; [congruence|]. destruct r as [|y r]; [congruence|].
      destruct (eval interp (y :: r)) as [v|] eqn:Ev; cbn [bindo] in H; [|discriminate].
      apply IH in H. destruct H as (defs & HE & ->).
      exists ((x :: l, v) :: defs). split; [econstructor; eauto|reflexivity].
  Qed.

  Lemma evaluated_read lines interp defs : evaluated eval lines interp defs ->
    forall params, exists i', read_parameters eval lines interp params = Some (i', store defs params).
  Proof.
    induction 1 as [interp|line lines interp name value v defs HA HE HR IH]; intros params.
    - exists interp. reflexivity.
    - cbn [read_parameters]. pose proof HA as HA'. apply parse_equals_iff in HA'. rewrite HA'.
      cbn [bindo fst snd].
      destruct HA as (a & b & c & d & _ & (Tl & _) & (Tr & _) & _).
      destruct name as [|x l]; [congruence|]. destruct value as [|y r]; [congruence|].
      rewrite HE. cbn [bindo]. destruct (IH (sset params (to_upper (x :: l)) v)) as [i' ->].
      exists i'. reflexivity.
  Qed.

  Lemma params_lookup lines interp i' p' :
    read_parameters eval lines interp [] = Some (i', p') ->
    exists defs, evaluated eval lines interp defs /\
      forall name,
        (forall v, get_parameter p' name = Some v <-> last_definition defs name v) /\
        (defines_parameter p' name = true <-> exists n v, In (n, v) defs /\ same_name n name) /\
        (forall d, (defines_parameter p' name = false -> load_double_default p' name d = d) /\
                   (forall v, last_definition defs name v -> load_double_default p' name d = v)).
  Proof.
    intros H. apply read_parameters_evaluated in H. destruct H as (defs & HE & ->).
    exists defs. split; [exact HE|]. intros name.
    assert (G : forall v, sget (store defs []) (to_upper name) = Some v <-> last_definition defs name v)
      by (intros v; apply store_get).
    unfold get_parameter, defines_parameter, load_double_default.
    split; [exact G|]. split.
    - destruct (sget (store defs []) (to_upper name)) as [w|] eqn:E.
      + split; [intros _|reflexivity]. apply G in E || (apply store_get in E).
        destruct E as (d1 & n & d2 & -> & Hs & _). exists n, w. split; [|exact Hs].
        apply in_or_app; right; left; reflexivity.
      + split; [discriminate|]. intros (n & v & Hin & Hs). exfalso.
        clear HE G. revert E. induction defs as [|[n0 v0] defs IH] using rev_ind; [destruct Hin|].
        unfold store. rewrite fold_left_app. cbn [fold_left fst snd]. fold (store defs (@nil (str * V))).
        rewrite sget_sset. destruct (str_eqb (to_upper n0) (to_upper name)) eqn:E0; [discriminate|].
        apply in_app_or in Hin. destruct Hin as [Hin|[X|[]]]; [apply IH, Hin|].
        injection X as <- <-. apply same_name_upper in Hs. apply str_eqb_eq in Hs. congruence.
    - intros d. split.
      + destruct (sget (store defs []) (to_upper name)); [discriminate|reflexivity].
      + intros v Hv. apply G in Hv. rewrite Hv. reflexivity.
  Qed.
End ParamsProof.

(** ** Boundary *)
Section BoundaryProof.
  Variable stoi : str -> option Z.
  Variable gs : str -> option (list Z).
  Hypothesis stoi_empty : stoi [] = None.

  (** A condition without species, or with an empty one, never succeeds. *)
  Lemma no_species_rejected all c m :
    cd_species c = None \/ cd_species c = Some [] ->
    read_condition stoi gs all c m = None.
  Proof.
    intros [H|H]; unfold read_condition; rewrite H; [reflexivity|].
    rewrite stoi_empty. reflexivity.
  Qed.

  Lemma conditions_rejected all cs : forall m,
    (exists c, In c cs /\ (cd_species c = None \/ cd_species c = Some [])) ->
    read_conditions stoi gs all cs m = None.
  Proof.
    induction cs as [|c cs IH]; intros m (c0 & Hin & Hc); [destruct Hin|].
    cbn [read_conditions]. destruct Hin as [->|Hin].
    - rewrite no_species_rejected by exact Hc. reflexivity.
    - destruct (read_condition stoi gs all c m) as [m'|]; cbn [bindo]; [|reflexivity].
      apply IH. exists c0; auto.
  Qed.

  Lemma regions_rejected all rs : forall acc,
    (exists ref cs c, In (ref, cs) rs /\ In c cs /\ (cd_species c = None \/ cd_species c = Some [])) ->
    read_regions stoi gs all rs acc = None.
  Proof.
    induction rs as [|[ref cs] rs IH]; intros acc (r0 & cs0 & c0 & Hin & Hc & Hs); [destruct Hin|].
    cbn [read_regions]. destruct (existsb _ acc); [reflexivity|].
    destruct Hin as [E|Hin].
    - injection E as -> ->. rewrite conditions_rejected by (exists c0; auto). reflexivity.
    - destruct (read_conditions stoi gs all cs []) as [m|]; cbn [bindo]; [|reflexivity].
      apply IH. exists r0, cs0, c0. auto.
  Qed.

  Lemma read_conditions_effects all cs : forall m m',
    read_conditions stoi gs all cs m = Some m' -> m' = rev (effects stoi cs) ++ m.
  Proof.
    induction cs as [|c cs IH]; intros m m' H; cbn [read_conditions] in H.
    - injection H as <-. reflexivity.
    - destruct (read_condition stoi gs all c m) as [m1|] eqn:E; cbn [bindo] in H; [|discriminate].
      apply IH in H. rewrite H. cbn [effects]. unfold read_condition in E. unfold cond_effect.
      destruct (cd_species c) as [s|]; [|discriminate].
      destruct (stoi s) as [i|] eqn:Es; cbn [bindo option_map] in *; [|discriminate].
      assert (Hs : str_eqb s [] = false).
      { destruct s; [congruence|reflexivity]. }
      rewrite Hs in E.
      destruct (cd_type c).
      + destruct (cd_attrs c) as [|a l].
        * injection E as <-. reflexivity.
        * destruct (c_attrs_ok (a :: l)); [|discriminate]. injection E as <-.
          cbn [rev]. rewrite <- app_assoc. reflexivity.
      + destruct (cd_attrs c) as [|a l]; [discriminate|].
        destruct (p_attrs_ok gs (a :: l)); [|discriminate]. injection E as <-.
        cbn [rev]. rewrite <- app_assoc. reflexivity.
      + injection E as <-. reflexivity.
  Qed.

  Lemma read_regions_spec all rs : forall acc out,
    read_regions stoi gs all rs acc = Some out ->
    NoDup (map fst acc) ->
    NoDup (map fst out) /\
    out = rev (map (fun rc => (fst rc, rev (effects stoi (snd rc)))) rs) ++ acc.
  Proof.
    induction rs as [|[ref cs] rs IH]; intros acc out H HN; cbn [read_regions] in H.
    - injection H as <-. auto.
    - destruct (existsb (fun kv => Z.eqb (fst kv) ref) acc) eqn:Ex; [discriminate|].
      destruct (read_conditions stoi gs all cs []) as [m|] eqn:E; cbn [bindo] in H; [|discriminate].
      apply read_conditions_effects in E. rewrite app_nil_r in E.
      destruct (IH _ _ H) as [H1 H2].
      + cbn [map fst]. constructor; [|exact HN]. intros Hin. apply in_map_iff in Hin.
        destruct Hin as ([k v] & <- & Hin). cbn [fst] in *.
        assert (X : existsb (fun kv : Z * bmap => Z.eqb (fst kv) k) acc = true).
        { apply existsb_exists. exists (k, v). split; [exact Hin|apply Z.eqb_refl]. }
        congruence.
      + split; [exact H1|]. rewrite H2. cbn [map rev]. rewrite <- app_assoc, E. reflexivity.
  Qed.

  (** acceptance *)
  Lemma ffo_no c s : find_first_of c s = None <-> ~ In c s.
  Proof.
    induction s as [|a s IH]; cbn [find_first_of In]; [tauto|]. destruct (Ascii.eqb_spec a c) as [->|Hne]; [split; [discriminate|tauto]|].
    destruct (find_first_of c s) as [k|]; cbn [option_map]; split; intros H; try discriminate; auto.
    - exfalso. assert (Some k = None) by (apply IH; intros E; apply H; right; auto). discriminate.
    - intros [E|E]; [congruence|]. apply (proj1 IH); auto.
  Qed.
  Lemma ffo_yes c s k : find_first_of c s = Some k <-> exists a b, s = a ++ c :: b /\ length a = k /\ ~ In c a.
  Proof.
    revert k. induction s as [|x s IH]; intros k; cbn [find_first_of].
    - split; [discriminate|]. intros ([|] & b & E & _); discriminate.
    - destruct (Ascii.eqb_spec x c) as [->|Hne].
      + split; [intros H; injection H as <-; exists [], s; auto|]. intros ([|y a] & b & E & L & H); [cbn in L; congruence|].
        injection E as <- _. exfalso. apply H. left. auto.
      + split.
        * destruct (find_first_of c s) as [j|]; [|discriminate]. intros H. injection H as <-. destruct (proj1 (IH j) eq_refl) as (a & b & -> & L & H).
          exists (x :: a), b. split; [auto|]. split; [cbn; lia|]. intros [E|E]; auto.
        * intros ([|y a] & b & E & L & H); [injection E; congruence|]. injection E as E1 E2. subst. 
          rewrite (proj2 (IH (length a))); [reflexivity|]. exists a, b. split; [auto|]. split; [auto|]. intros E. apply H. right. auto.
  Qed.
  Lemma bracket_iff v : periodic_value_ok gs v = true <-> region_value gs v.
  Proof.
    unfold periodic_value_ok, region_value. split.
    - destruct (find_first_of "["%char v) as [b|] eqn:Eb; destruct (find_first_of "]"%char v) as [e|] eqn:Ee; cbn [int_pos].
      + destruct (Z.ltb_spec (Z.of_nat b) (Z.of_nat e)); [|destruct (substr _ _ _); discriminate].
        destruct (Z.ltb_spec (Z.of_nat e - Z.of_nat b - 1) 0); [lia|].
        apply ffo_yes in Eb. destruct Eb as (p1 & q1 & -> & L1 & N1). apply ffo_yes in Ee. destruct Ee as (p2 & q2 & E2 & L2 & N2).
        assert (exists inner, q1 = inner ++ "]"%char :: q2 /\ p2 = p1 ++ "["%char :: inner) as (inner & -> & ->).
        { clear - E2 L1 L2 H. subst b e. revert p2 E2 H. induction p1 as [|x p1 IH]; intros p2 E2 H.
          - destruct p2 as [|y p2]; [cbn in H; lia|]. injection E2 as <- ->. exists p2. auto.
          - destruct p2 as [|y p2]; [cbn in H; lia|]. cbn in E2. injection E2 as <- E2. destruct (IH p2 E2) as (inner & -> & ->); [cbn in H; lia|]. exists inner. auto. }
        rewrite app_length in L2. cbn [length] in L2. unfold substr.
        replace (Z.to_nat (Z.of_nat b + 1)) with (S (length p1)) by lia. replace (Z.to_nat (Z.of_nat e - Z.of_nat b - 1)) with (length inner) by lia.
        destruct (Nat.ltb_spec (length (p1 ++ "["%char :: inner ++ "]"%char :: q2)) (S (length p1))); [discriminate|].
        replace (skipn (S (length p1)) (p1 ++ "["%char :: inner ++ "]"%char :: q2)) with (inner ++ "]"%char :: q2)
          by (rewrite skipn_app, skipn_all2 by lia; replace (S (length p1) - length p1)%nat with 1%nat by lia; reflexivity).
        rewrite firstn_app, Nat.sub_diag, firstn_all, app_nil_r. destruct (gs inner) as [[|z [|]]|] eqn:Eg; try discriminate. intros _.
        exists p1, inner, q2, z. split; [auto|]. split; [intros X; apply N2; apply in_or_app; right; right; auto|]. left.
        split; [auto|]. split; [auto|]. intros X. apply N2. apply in_or_app. auto.
      + destruct (Z.ltb_spec (Z.of_nat b) (-1)); [lia|]. destruct (substr _ _ _); discriminate.
      + destruct (Z.ltb_spec (-1) (Z.of_nat e)); [|lia]. destruct (Z.ltb_spec (Z.of_nat e - -1 - 1) 0); [lia|].
        apply ffo_no in Eb. apply ffo_yes in Ee. destruct Ee as (p2 & q2 & -> & L2 & N2). unfold substr. change (Z.to_nat (-1 + 1)) with O.
        replace (Z.to_nat (Z.of_nat e - -1 - 1)) with (length p2) by lia. destruct (Nat.ltb _ 0); [discriminate|]. cbn [skipn].
        rewrite firstn_app, Nat.sub_diag, firstn_all, app_nil_r. destruct (gs p2) as [[|z [|]]|] eqn:Eg; try discriminate. intros _.
        exists [], p2, q2, z. split; [auto|]. split; [auto|]. right. auto.
      + change (-1 <? -1)%Z with false. destruct (substr _ _ _); discriminate.
    - intros (pre & inner & post & z & Eg & Ni & [(-> & N1 & N2)|(Ev & N1)]).
      + rewrite (proj2 (ffo_yes "["%char _ (length pre))) by (exists pre, (inner ++ "]"%char :: post); auto).
        rewrite (proj2 (ffo_yes "]"%char _ (length pre + 1 + length inner))).
        2:{ exists (pre ++ "["%char :: inner), post. split; [rewrite <- app_assoc; auto|]. split; [rewrite app_length; cbn; lia|].
            intros X. apply in_app_or in X. destruct X as [X|[X|X]]; auto. discriminate. }
        cbn [int_pos]. destruct (Z.ltb_spec (Z.of_nat (length pre)) (Z.of_nat (length pre + 1 + length inner))); [|lia].
        destruct (Z.ltb_spec (Z.of_nat (length pre + 1 + length inner) - Z.of_nat (length pre) - 1) 0); [lia|]. unfold substr.
        replace (Z.to_nat (Z.of_nat (length pre) + 1)) with (S (length pre)) by lia.
        replace (Z.to_nat (Z.of_nat (length pre + 1 + length inner) - Z.of_nat (length pre) - 1)) with (length inner) by lia.
        destruct (Nat.ltb_spec (length (pre ++ "["%char :: inner ++ "]"%char :: post)) (S (length pre))) as [Hl|Hl]; [rewrite app_length in Hl; cbn in Hl; lia|].
        replace (skipn (S (length pre)) (pre ++ "["%char :: inner ++ "]"%char :: post)) with (inner ++ "]"%char :: post)
          by (rewrite skipn_app, skipn_all2 by lia; replace (S (length pre) - length pre)%nat with 1%nat by lia; reflexivity).
        rewrite firstn_app, Nat.sub_diag, firstn_all, app_nil_r. rewrite Eg. auto.
      + rewrite (proj2 (ffo_no _ _) N1). subst v. rewrite (proj2 (ffo_yes "]"%char _ (length inner))) by (exists inner, post; auto).
        cbn [int_pos]. destruct (Z.ltb_spec (-1) (Z.of_nat (length inner))); [|lia]. destruct (Z.ltb_spec (Z.of_nat (length inner) - -1 - 1) 0); [lia|].
        unfold substr. change (Z.to_nat (-1 + 1)) with O. replace (Z.to_nat (Z.of_nat (length inner) - -1 - 1)) with (length inner) by lia.
        destruct (Nat.ltb_spec (length (inner ++ "]"%char :: post)) 0); [lia|]. cbn [skipn]. rewrite firstn_app, Nat.sub_diag, firstn_all, app_nil_r. rewrite Eg. auto.
  Qed.
  Lemma str_eqb_neq a b : a <> b -> str_eqb a b = false.
  Proof. intros H. destruct (str_eqb a b) eqn:E; auto. apply str_eqb_eq in E. congruence. Qed.
  Lemma nonempty_iff (v : str) : negb (str_eqb v []) = true <-> v <> [].
  Proof. destruct v; cbn; split; congruence. Qed.
  Lemma c_attrs_iff l : c_attrs_ok l = true <-> forall n v, In (n, v) l -> n = name_species \/ n = name_value /\ v <> [].
  Proof.
    induction l as [|[n v] l IH]; cbn [c_attrs_ok]; [split; auto; intros _ n v []|].
    destruct (str_eqb n name_species) eqn:E1; [apply str_eqb_eq in E1; subst|].
    { rewrite IH. split; intros H a b; [intros [X|X]; [injection X as <- <-; auto|auto]|intros X; apply H; right; auto]. }
    destruct (str_eqb n name_value) eqn:E2; [apply str_eqb_eq in E2; subst|].
    { rewrite andb_true_iff, nonempty_iff, IH. split.
      - intros [H1 H2] a b [X|X]; [injection X as <- <-; auto|auto].
      - intros H. split; [destruct (H name_value v (or_introl eq_refl)) as [X|[_ X]]; [discriminate X|auto]|intros a b X; apply H; right; auto]. }
    split; [discriminate|]. intros H. destruct (H n v (or_introl eq_refl)) as [->|[-> _]]; [rewrite (proj2 (str_eqb_eq _ _) eq_refl) in E1|rewrite (proj2 (str_eqb_eq _ _) eq_refl) in E2]; discriminate.
  Qed.
  Lemma region_nonempty v : region_value gs v -> v <> [].
  Proof. intros (pre & inner & post & z & _ & _ & [(-> & _)|(-> & _)]) E; destruct pre; destruct inner; discriminate. Qed.
  Lemma p_attrs_iff l : p_attrs_ok gs l = true <-> forall n v, In (n, v) l -> (n = name_value -> region_value gs v) /\ (n = name_user -> v <> []).
  Proof.
    induction l as [|[n v] l IH]; cbn [p_attrs_ok]; [split; auto; intros _ n v []|].
    assert (G : (forall a b, In (a, b) ((n, v) :: l) -> (a = name_value -> region_value gs b) /\ (a = name_user -> b <> [])) <->
      ((n = name_value -> region_value gs v) /\ (n = name_user -> v <> [])) /\ p_attrs_ok gs l = true).
    { rewrite IH. split; intros H; [split; [apply H; left; auto|intros; apply H; right; auto]|]. destruct H as [H1 H2]. intros a b [X|X]; [injection X as <- <-; auto|auto]. }
    rewrite G. clear G IH.
    destruct (str_eqb n name_species) eqn:E1; [apply str_eqb_eq in E1; subst|].
    { split; [intros H; split; [split; discriminate|auto]|tauto]. }
    destruct (str_eqb n name_user) eqn:E2; [apply str_eqb_eq in E2; subst|].
    { rewrite andb_true_iff, nonempty_iff. split; [intros [H1 H2]; split; [split; [discriminate|auto]|auto]|tauto]. }
    destruct (str_eqb n name_value) eqn:E3; [apply str_eqb_eq in E3; subst|].
    { rewrite !andb_true_iff, nonempty_iff, bracket_iff. split.
      - intros [[H1 H2] H3]. split; [split; [auto|discriminate]|auto].
      - intros [[H1 _] H3]. split; [split; [apply region_nonempty|]; auto|auto]. }
    split; [|tauto]. intros H. split; [|auto]. split; intros ->; [rewrite (proj2 (str_eqb_eq _ _) eq_refl) in E3|rewrite (proj2 (str_eqb_eq _ _) eq_refl) in E2]; discriminate.
  Qed.
  Lemma condition_iff all c m : (exists m', read_condition stoi gs all c m = Some m') <-> condition_ok stoi gs c.
  Proof.
    unfold read_condition, condition_ok. destruct (cd_species c) as [s|]; [|split; [intros (m' & E); discriminate|intros ((s & i & E & _) & _); discriminate]].
    destruct (stoi s) as [i|] eqn:Es; cbn [bindo]; [|split; [intros (m' & E); discriminate|intros ((s' & i & E & E') & _); congruence]].
    assert (Hs : str_eqb s [] = false) by (destruct s; [congruence|reflexivity]). rewrite Hs.
    assert (X : exists s0 i0, Some s = Some s0 /\ stoi s0 = Some i0) by (exists s, i; auto).
    destruct (cd_type c).
    - change (String.list_ascii_of_string "SPECIES"%string) with name_species. change (String.list_ascii_of_string "VALUE"%string) with name_value.
      destruct (cd_attrs c) as [|a l] eqn:Ea. { split; [intros _; split; [auto|intros n v []]|intros _; eexists; reflexivity]. }
      rewrite <- c_attrs_iff. destruct (c_attrs_ok (a :: l)); split; intros H; auto; try (eexists; reflexivity); destruct H; discriminate.
    - change (String.list_ascii_of_string "user_definedTYPE"%string) with name_user. change (String.list_ascii_of_string "VALUE"%string) with name_value.
      destruct (cd_attrs c) as [|a l] eqn:Ea. { split; [intros (m' & E); discriminate|intros (_ & H & _); congruence]. }
      rewrite <- p_attrs_iff. destruct (p_attrs_ok gs (a :: l)); split; intros H.
      + split; [auto|]. split; [discriminate|auto].
      + eexists; reflexivity.
      + destruct H; discriminate.
      + destruct H as (_ & _ & H); discriminate.
    - split; [auto|]. intros _. eexists; reflexivity.
  Qed.
  Lemma conditions_iff all cs : forall m, (exists m', read_conditions stoi gs all cs m = Some m') <-> forall c, In c cs -> condition_ok stoi gs c.
  Proof.
    induction cs as [|c cs IH]; intros m; cbn [read_conditions].
    - split; [intros _ c []|intros _; eexists; reflexivity].
    - destruct (read_condition stoi gs all c m) as [m1|] eqn:E; cbn [bindo].
      + rewrite IH. split; intros H; [intros c' [<-|Hc]; auto; apply (condition_iff all c m); eauto|auto].  intros c' Hc; apply H; right; auto.
      + split; [intros (m' & X); discriminate|]. intros H. destruct (proj2 (condition_iff all c m) (H c (or_introl eq_refl))) as (m' & X). congruence.
  Qed.
  Lemma regions_iff all rs : forall acc, (exists out, read_regions stoi gs all rs acc = Some out) <->
    NoDup (map fst rs) /\ (forall r, In r (map fst rs) -> ~ In r (map fst acc)) /\ forall ref cs c, In (ref, cs) rs -> In c cs -> condition_ok stoi gs c.
  Proof.
    induction rs as [|[ref cs] rs IH]; intros acc; cbn [read_regions map fst].
    - split; [intros _; split; [constructor|]; split; [intros r []|intros ref cs c []]|intros _; eexists; reflexivity].
    - assert (Ex : existsb (fun kv : Z * bmap => Z.eqb (fst kv) ref) acc = true <-> In ref (map fst acc)).
      { rewrite existsb_exists, in_map_iff. split; intros (kv & H1 & H2); exists kv; [apply Z.eqb_eq in H2; auto|split; [auto|apply Z.eqb_eq; auto]]. }
      destruct (existsb (fun kv => Z.eqb (fst kv) ref) acc).
      { split; [intros (o & X); discriminate|]. intros (_ & H & _). exfalso. apply (H ref (or_introl eq_refl)). apply Ex. auto. }
      assert (Nx : ~ In ref (map fst acc)) by (intros X; apply Ex in X; discriminate). clear Ex.
      destruct (read_conditions stoi gs all cs []) as [m|] eqn:E; cbn [bindo].
      + rewrite IH. cbn [map fst]. split.
        * intros (H1 & H2 & H3). split; [|split].
          -- constructor; auto. intros X. apply (H2 ref X). left. auto.
          -- intros r [<-|Hr]; auto. intros X. apply (H2 r Hr). right. auto.
          -- intros r' cs' c [X|X] Hc; [injection X as <- <-; apply (conditions_iff all cs []); eauto|eauto].
        * intros (H1 & H2 & H3). inversion H1 as [|? ? Hn H1']. subst. split; [auto|]. split.
          -- intros r Hr [<-|X]; [tauto|]. apply (H2 r); auto. right. auto.
          -- intros r' cs' c X Hc. apply (H3 r' cs' c); auto. right. auto.
      + split; [intros (o & X); discriminate|]. intros (_ & _ & H). destruct (proj2 (conditions_iff all cs [])) as (m & X); [|congruence].
        intros c Hc. apply (H ref cs c); auto. left. auto.
  Qed.
  Lemma boundary_iff all rs : (exists out, read_boundary stoi gs all rs [] = Some out) <->
    NoDup (map fst rs) /\ forall ref cs c, In (ref, cs) rs -> In c cs -> condition_ok stoi gs c.
  Proof. unfold read_boundary. rewrite regions_iff. split; [tauto|]. intros [H1 H2]. split; [auto|]. split; [intros r _ []|auto]. Qed.
End BoundaryProof.

(** integer loads *)
Section Loads.
  Context {V : Type} (round : V -> Z).
  Open Scope Z_scope.
  Lemma checked_int_iff v z : checked_int round v = Some z <-> round v = z /\ -2147483648 <= z <= 2147483647.
  Proof.
    unfold checked_int. cbv zeta.
    destruct ((- 2 ^ 31 <=? round v) && (round v <? 2 ^ 31)) eqn:E.
    - apply andb_true_iff in E. destruct E as [E1 E2]. apply Z.leb_le in E1. apply Z.ltb_lt in E2. split; intros H; [injection H as <-; split; [auto|lia]|destruct H as [-> _]; auto].
    - split; [discriminate|]. intros [<- H]. apply andb_false_iff in E. destruct E as [E|E]; [apply Z.leb_gt in E|apply Z.ltb_ge in E]; lia.
  Qed.
  Lemma load_int_iff (p : smap V) name z : load_int round p name = Some z <-> exists v, get_parameter p name = Some v /\ round v = z /\ -2147483648 <= z <= 2147483647.
  Proof.
    unfold load_int, get_parameter. destruct (sget p (to_upper name)) as [v|]; cbn [bindo].
    - rewrite checked_int_iff. split; [intros H; exists v; auto|intros (v' & E & H); injection E as <-; auto].
    - split; [discriminate|intros (v & H & _); discriminate].
  Qed.
  Lemma load_int_default_iff (p : smap V) name d :
    (defines_parameter p name = false -> load_int_default round p name d = Some d) /\
    (forall v, get_parameter p name = Some v -> forall z, load_int_default round p name d = Some z <-> round v = z /\ -2147483648 <= z <= 2147483647).
  Proof.
    unfold defines_parameter, load_int_default, get_parameter. destruct (sget p (to_upper name)) as [v|].
    - split; [discriminate|]. intros v' E z. injection E as <-. apply checked_int_iff.
    - split; [auto|discriminate].
  Qed.
  Lemma load_size_t_iff (p : smap V) name z : load_size_t round p name = Some z <-> exists v, get_parameter p name = Some v /\
    ((0 <= round v <= 2147483647 /\ z = round v) \/ (-2147483648 <= round v < 0 /\ z = round v + 18446744073709551616)).
  Proof.
    unfold load_size_t, get_parameter. destruct (sget p (to_upper name)) as [v|]; cbn [bindo].
    2: { split; [discriminate|intros (v & H & _); discriminate]. }
    assert (M : forall x, -2147483648 <= x <= 2147483647 -> x mod 2 ^ 64 = if x <? 0 then x + 18446744073709551616 else x).
    { intros x Hx. change (2 ^ 64) with 18446744073709551616. destruct (Z.ltb_spec x 0); [symmetry; apply (Z.mod_unique_pos _ _ (-1)); lia|apply Z.mod_small; lia]. }
    split.
    - destruct (checked_int round v) as [x|] eqn:E; [|discriminate]. cbn [option_map]. apply checked_int_iff in E. destruct E as [<- Hx]. rewrite M by auto. intros H. injection H as <-.
      exists v. split; [auto|]. destruct (Z.ltb_spec (round v) 0); [right|left]; split; auto; lia.
    - intros (v' & E & H). injection E as <-.
      assert (E : checked_int round v = Some (round v)) by (apply checked_int_iff; split; [auto|lia]). rewrite E. cbn [option_map]. rewrite M by lia. f_equal.
      destruct (Z.ltb_spec (round v) 0); lia.
  Qed.
End Loads.
