(** Functions, species and reactions: lookups (C64, C65, C55). *)
From Coq Require Import String.
From Verif Require Import M_Reader2 S_Reader2 L_Reader L_Reader2.
From Coq Require Import Permutation Lia List.
Import ListNotations.
Open Scope list_scope.

Lemma last_at_snoc {A} (p : A -> Prop) l a x : (exists k, last_at p (l ++ [a]) k x) <-> (p a /\ x = a) \/ (~ p a /\ exists k, last_at p l k x).
Proof.
  split.
  - intros (k & E & Hp & H). destruct (Nat.lt_ge_cases k (length l)) as [L|L].
    + right. split.
      * apply (H (length l) a); auto. rewrite nth_error_app2, Nat.sub_diag by lia. auto.
      * exists k. split; [rewrite nth_error_app1 in E by auto; auto|]. split; [auto|]. intros k' a' Hk E'. apply (H k' a'); auto. rewrite nth_error_app1; auto. apply nth_error_Some. congruence.
    + left. rewrite nth_error_app2 in E by auto. destruct (k - length l)%nat as [|j]; cbn in E; [injection E as <-; auto|destruct j; discriminate].
  - intros [[Hp ->]|[Hp (k & E & Hx & H)]].
    + exists (length l). split; [rewrite nth_error_app2, Nat.sub_diag by lia; auto|]. split; [auto|]. intros k' a' Hk E'. exfalso.
      assert (k' < length (l ++ [a]))%nat by (apply nth_error_Some; congruence). rewrite app_length in *. cbn in *. lia.
    + exists k. assert (k < length l)%nat by (apply nth_error_Some; congruence). split; [rewrite nth_error_app1; auto|]. split; [auto|].
      intros k' a' Hk E'. destruct (Nat.lt_ge_cases k' (length l)) as [L|L].
      * rewrite nth_error_app1 in E' by auto. eauto.
      * rewrite nth_error_app2 in E' by auto. destruct (k' - length l)%nat as [|j]; cbn in E'; [injection E' as <-; auto|destruct j; discriminate].
Qed.
Lemma find_rev_last {A} (p : A -> bool) l x : find p (rev l) = Some x <-> exists k, last_at (fun a => p a = true) l k x.
Proof.
  induction l as [|a l IH] using rev_ind.
  - cbn. split; [discriminate|]. intros (k & E & _). destruct k; discriminate.
  - rewrite rev_app_distr. cbn [rev app find]. rewrite last_at_snoc, <- IH. destruct (p a); split; intros H.
    + left. injection H as <-. auto.
    + destruct H as [[_ ->]|[H _]]; [auto|congruence].
    + right. split; [congruence|auto].
    + destruct H as [[H _]|[_ H]]; [congruence|auto].
Qed.
Lemma last_at_ext {A} (p q : A -> Prop) l k x : (forall a, p a <-> q a) -> last_at p l k x <-> last_at q l k x.
Proof. intros H. unfold last_at. rewrite H. split; intros (H1 & H2 & H3); split; auto; split; auto; intros k' a' Hk E X; apply H in X; eapply H3; eauto. Qed.
Lemma last_at_map {A B} (p : B -> Prop) (g : A -> B) l k y : last_at p (map g l) k y <-> exists x, y = g x /\ last_at (fun a => p (g a)) l k x.
Proof.
  unfold last_at. rewrite nth_error_map. split.
  - intros (E & Hp & H). destruct (nth_error l k) as [x|]; [|discriminate]. injection E as <-. exists x. split; [auto|]. split; [auto|]. split; [auto|].
    intros k' a' Hk E'. apply (H k'); auto. rewrite nth_error_map, E'. auto.
  - intros (x & -> & E & Hp & H). rewrite E. split; [auto|]. split; [auto|]. intros k' a' Hk E'. rewrite nth_error_map in E'. destruct (nth_error l k') as [z|] eqn:Ez; [|discriminate].
    injection E' as <-. eauto.
Qed.

Section FunctionsProof.
  Variable gen_vec : str -> list str.
  Variable gen_seqv : str -> list Z.
  Variable lex_bool : str -> option bool.
  Notation entry_def := (entry_def gen_vec gen_seqv lex_bool).
  Notation function_ok := (function_ok gen_vec gen_seqv lex_bool).
  Notation read_entries := (read_entries gen_vec gen_seqv lex_bool).
  Notation read_functions := (read_functions gen_vec gen_seqv lex_bool).

  Lemma fv_get_in (m : fvmap) k f : NoDup (map fst m) -> (fv_get m k = Some f <-> In (k, f) m).
  Proof.
    unfold fv_get. induction m as [|[k' f'] m IH]; intros N; cbn [find map fst].
    - cbn. split; [discriminate|tauto].
    - inversion N as [|? ? Hn N']. subst. destruct (key_eqb k' k) eqn:E.
      + apply key_eqb_eq in E. subst. cbn [option_map snd In]. split; [intros H; injection H as <-; auto|]. intros [H|H]; [injection H as <-; auto|].
        exfalso. apply Hn. apply in_map_iff. exists (k, f). auto.
      + rewrite IH by auto. cbn [In]. split; [auto|]. intros [H|H]; [|auto]. injection H as -> ->. rewrite (proj2 (key_eqb_eq k k) eq_refl) in E. discriminate.
  Qed.
  Lemma nodup_flat_rev {A B} (g : A -> list B) l : NoDup (flat_map g (rev l)) <-> NoDup (flat_map g l).
  Proof. split; apply Permutation_NoDup; apply Permutation_flat_map; [apply Permutation_sym|]; apply Permutation_rev. Qed.
  Lemma entries_accept es : (exists m, read_entries es [] = Ok m) <->
    (forall e, In e es -> exists k fvs, entry_kind gen_vec lex_bool e k fvs) /\ NoDup (flat_map (keyset gen_vec gen_seqv) es).
  Proof.
    split.
    - intros (m & H). apply read_entries_ok in H; [|constructor]. destruct H as (ks & HF & HN & _). cbn [map] in HN. rewrite app_nil_r in HN. rewrite nodup_flat_rev in HN.
      split; [|exact HN]. clear HN. induction HF as [|e kf es ks H HF IH]; intros e' Hin; [destruct Hin|]. destruct Hin as [<-|Hin]; [exists (fst kf), (snd kf); auto|auto].
    - intros (H1 & H2). assert (exists ks, Forall2 (fun e kf => entry_kind gen_vec lex_bool e (fst kf) (snd kf)) es ks) as (ks & HF).
      { clear H2. induction es as [|e es IH]; [exists []; constructor|]. destruct (H1 e (or_introl eq_refl)) as (k & f & Hk). destruct IH as (ks & HF); [intros; apply H1; right; auto|].
        exists ((k, f) :: ks). constructor; auto. }
      eexists. apply read_entries_ok; [constructor|]. exists ks. split; [exact HF|]. split; [|reflexivity]. cbn [map]. rewrite app_nil_r. rewrite nodup_flat_rev. auto.
  Qed.
  Lemma entries_lookup es m v d f : read_entries es [] = Ok m -> (fv_get m (v, d) = Some f <-> exists e, In e es /\ entry_def e v d f).
  Proof.
    intros H. apply read_entries_ok in H; [|constructor]. destruct H as (ks & HF & HN & ->). cbn [map] in HN. rewrite !app_nil_r in *. rewrite nodup_flat_rev in HN.
    set (m := flat_map _ _).
    assert (P : Permutation m (flat_map (fun ekf => all_keys gen_vec gen_seqv (fst ekf) (fst (snd ekf)) (snd (snd ekf))) (combine es ks))).
    { unfold m. transitivity (flat_map (fun ekf => rev (all_keys gen_vec gen_seqv (fst ekf) (fst (snd ekf)) (snd (snd ekf)))) (combine es ks)).
      - apply Permutation_flat_map. apply Permutation_sym, Permutation_rev.
      - induction (combine es ks); cbn [flat_map]; [constructor|]. apply Permutation_app; auto. apply Permutation_sym, Permutation_rev. }
    assert (K : map fst (flat_map (fun ekf => all_keys gen_vec gen_seqv (fst ekf) (fst (snd ekf)) (snd (snd ekf))) (combine es ks)) = flat_map (keyset gen_vec gen_seqv) es).
    { clear - HF. induction HF as [|e kf es ks H HF IH]; cbn [combine flat_map map]; [auto|]. rewrite map_app, IH. f_equal. cbn [fst snd]. apply all_keys_fst. apply kind_length with (1 := H). }
    rewrite fv_get_in by (eapply Permutation_NoDup; [apply Permutation_map; apply Permutation_sym; exact P|]; rewrite K; auto).
    assert (In ((v, d), f) m <-> In ((v, d), f) (flat_map (fun ekf => all_keys gen_vec gen_seqv (fst ekf) (fst (snd ekf)) (snd (snd ekf))) (combine es ks))) as ->
      by (split; apply Permutation_in; [|apply Permutation_sym]; auto).
    clear - HF. induction HF as [|e kf es ks H HF IH]; cbn [combine flat_map].
    - split; [intros []|intros (e & [] & _)].
    - rewrite in_app_iff, IH. cbn [fst snd]. rewrite (in_all_keys gen_vec gen_seqv lex_bool _ _ _ _ _ _ H). split.
      + intros [X|(e' & Hi & X)]; [exists e; split; [left|]; auto|exists e'; split; [right|]; auto].
      + intros (e' & [<-|Hi] & X); eauto.
  Qed.
  Definition block_read (b : fblock) (nm : str * fvmap) : Prop := exists n, fb_name b = Some n /\ n <> [] /\ fst nm = to_upper n /\ read_entries (fb_entries b) [] = Ok (snd nm).
  Lemma read_functions_ok fs : forall acc fm, read_functions fs acc = Ok fm <-> exists nms, Forall2 block_read fs nms /\ fm = rev nms ++ acc.
  Proof.
    induction fs as [|b fs IH]; intros acc fm; cbn [M_Reader2.read_functions].
    - split; [intros H; injection H as <-; exists []; split; [constructor|auto]|]. intros (nms & HF & ->). inversion HF. reflexivity.
    - rewrite obind_ok. split.
      + intros (n & Hn & H). apply from_opt_ok in Hn. apply obind_ok in H. destruct H as (u & Hne & H). apply nonempty_ok in Hne. apply obind_ok in H. destruct H as (m & Hm & H).
        apply IH in H. destruct H as (nms & HF & ->). exists ((to_upper n, m) :: nms). split; [constructor; auto; exists n; auto|]. cbn [rev]. rewrite <- app_assoc. auto.
      + intros (nms & HF & ->). inversion HF as [|? [un m] ? nms' (n & Hn & Hne & E & Hm) HF']. subst. cbn [fst snd] in *. subst un. exists n. split; [apply from_opt_ok; auto|].
        apply obind_ok. exists tt. split; [apply nonempty_ok; auto|]. apply obind_ok. exists m. split; [auto|]. apply IH. exists nms'. split; [auto|]. cbn [rev]. rewrite <- app_assoc. auto.
  Qed.
  Theorem functions_accepted fs : (exists fm, read_functions fs [] = Ok fm) <-> forall b, In b fs -> function_ok b.
  Proof.
    assert (B : forall b, (exists nm, block_read b nm) <-> function_ok b).
    { intros b. unfold block_read, S_Reader2.function_ok. rewrite <- unique_nodup. split.
      - intros (nm & n & H1 & H2 & _ & H3). destruct (proj1 (entries_accept (fb_entries b)) (ex_intro _ _ H3)). eauto 6.
      - intros ((n & H1 & H2) & H3 & H4). destruct (proj2 (entries_accept (fb_entries b)) (conj H3 H4)) as (m & Hm). exists (to_upper n, m). exists n. auto. }
    split.
    - intros (fm & H). apply read_functions_ok in H. destruct H as (nms & HF & _). intros b Hb. apply B. clear - HF Hb. induction HF; [destruct Hb|]. destruct Hb as [<-|Hb]; eauto.
    - intros H. assert (exists nms, Forall2 block_read fs nms) as (nms & HF).
      { induction fs as [|b fs IH]; [exists []; constructor|]. destruct (proj2 (B b) (H b (or_introl eq_refl))) as (nm & Hnm). destruct IH as (nms & HF); [intros; apply H; right; auto|]. eauto. }
      exists (rev nms ++ []). apply read_functions_ok. eauto.
  Qed.
  Lemma Forall2_last {A B} (R : A -> B -> Prop) (p : A -> Prop) (q : B -> Prop) l m : Forall2 R l m -> (forall a b, R a b -> (p a <-> q b)) ->
    forall k b, last_at q m k b <-> exists a, last_at p l k a /\ nth_error m k = Some b /\ R a b.
  Proof.
    intros HF Hpq k b.
    assert (N : forall k, match nth_error l k, nth_error m k with Some a, Some b => R a b | None, None => True | _, _ => False end).
    { clear - HF. induction HF; intros [|k]; cbn; auto. apply IHHF. }
    unfold last_at. split.
    - intros (E & Hq & H). pose proof (N k) as Nk. rewrite E in Nk. destruct (nth_error l k) as [a|]; [|tauto]. exists a. split; [|auto]. split; [auto|]. split; [apply (Hpq a b Nk); auto|].
      intros k' a' Hk E' Hp. pose proof (N k') as Nk'. rewrite E' in Nk'. destruct (nth_error m k') as [b'|] eqn:Eb; [|tauto]. apply (H k' b' Hk Eb). apply (Hpq a' b' Nk'). auto.
    - intros (a & (E & Hp & H) & Eb & HR). split; [auto|]. split; [apply (Hpq a b HR); auto|]. intros k' b' Hk E' Hq. pose proof (N k') as Nk'. rewrite E' in Nk'.
      destruct (nth_error l k') as [a'|] eqn:Ea; [|tauto]. apply (H k' a' Hk Ea). apply (Hpq a' b' Nk'). auto.
  Qed.
  Theorem functions_lookup fs fm name v d f : read_functions fs [] = Ok fm ->
    (function_def fm name v d = Some f <-> exists k b e, last_at (named name) fs k b /\ In e (fb_entries b) /\ entry_def e v d f).
  Proof.
    intros H. apply read_functions_ok in H. destruct H as (nms & HF & ->). rewrite app_nil_r. unfold function_def, sget.
    pose proof (Forall2_last block_read (named name) (fun nm => str_eqb (fst nm) (to_upper name) = true) fs nms HF) as L.
    assert (Hpq : forall a b, block_read a b -> named name a <-> str_eqb (fst b) (to_upper name) = true).
    { intros a b (n & Hn & _ & E & _). unfold named. rewrite E, str_eqb_eq. split.
      - intros (n' & Hn' & S). rewrite Hn in Hn'. injection Hn' as <-. apply same_name_upper. auto.
      - intros S. exists n. split; [auto|apply same_name_upper; auto]. }
    specialize (L Hpq).
    destruct (find (fun kv => str_eqb (fst kv) (to_upper name)) (rev nms)) as [[un m]|] eqn:E; cbn [option_map snd].
    - apply find_rev_last in E. destruct E as (k & E). pose proof (proj1 (L k _) E) as (b & Lb & _ & HR). destruct HR as (n & Hn & Hne & Eu & Hm). cbn [fst snd] in *.
      rewrite (entries_lookup _ _ _ _ _ Hm). split.
      + intros (e & He & Hd). exists k, b, e. auto.
      + intros (k' & b' & e & Lb' & He & Hd).
        assert (b = b') as <-; [|eauto].
        destruct Lb as (E1 & P1 & H1), Lb' as (E2 & P2 & H2). destruct (Nat.lt_trichotomy k k') as [X|[->|X]].
        * exfalso. apply (H1 k' b' X E2 P2).
        * congruence.
        * exfalso. apply (H2 k b X E1 P1).
    - split; [discriminate|]. intros (k & b & e & Lb & _). exfalso.
      pose proof Lb as Lb'. destruct Lb' as (E1 & P1 & _).
      assert (exists nm, nth_error nms k = Some nm /\ block_read b nm) as (nm & En & HR).
      { clear - HF E1. revert k E1. induction HF; intros [|k] E; cbn in E; try discriminate; [injection E as <-; cbn; eauto|]. cbn. eauto. }
      pose proof (proj2 (L k nm) (ex_intro _ b (conj Lb (conj En HR)))) as Q.
      assert (find (fun kv : str * fvmap => str_eqb (fst kv) (to_upper name)) (rev nms) = Some nm) by (apply find_rev_last; eauto). congruence.
  Qed.
End FunctionsProof.

Lemma F2len {A B} (P : A -> B -> Prop) l r : Forall2 P l r -> length l = length r.
Proof. induction 1; cbn; auto. Qed.
Section SessionProof.
  Context {V : Type}.
  Variable eval : smap V -> str -> option V.
  Variable stoi : str -> option Z.
  Variable gen_vec : str -> list str.
  Variable gen_seqv : str -> list Z.
  Variable gen_seq : str -> option (list Z).
  Variable lex_bool : str -> option bool.

  Lemma read_parameters_env lines : forall interp params i' p',
    read_parameters eval lines interp params = Some (i', p') ->
    exists defs, evaluated eval lines interp defs /\ p' = store defs params /\ i' = extend interp defs.
  Proof.
    induction lines as [|line lines IH]; intros interp params i' p' H; cbn [read_parameters] in H.
    - injection H as <- <-. exists []. split; [constructor|auto].
    - destruct (parse_equals line) as [[l r]|] eqn:E; cbn [bindo fst snd] in H; [|discriminate].
      apply parse_equals_iff in E. pose proof E as E'.
      destruct E' as (a & b & c & d & _ & (Tl & _) & (Tr & _) & _).
      destruct l as [|x l]; [congruence|]. destruct r as [|y r]; [congruence|].
      destruct (eval interp (y :: r)) as [v|] eqn:Ev; cbn [bindo] in H; [|discriminate].
      apply IH in H. destruct H as (defs & HE & -> & ->).
      exists ((x :: l, v) :: defs). split; [econstructor; eauto|auto].
  Qed.
  (** what each element left *)
  Definition sp_read (e : specie) (dr : list (str * V) * (Z * srec V)) : Prop :=
    exists id name, sp_id e = Some id /\ sp_name e = Some name /\ stoi id = Some (fst (snd dr)) /\ sr_name (snd (snd dr)) = name /\
      sr_params (snd (snd dr)) = store (fst dr) [] /\ read_functions gen_vec gen_seqv lex_bool (sp_funcs e) [] = Ok (sr_funcs (snd (snd dr))).
  Lemma read_species_ok els : forall interp acc i' out, read_species eval stoi gen_vec gen_seqv lex_bool els interp acc = Ok (i', out) ->
    exists drs, threads eval (map sp_lines els) interp (map fst drs) /\ Forall2 sp_read els drs /\ out = rev (map snd drs) ++ acc /\ i' = fold_left extend (map fst drs) interp.
  Proof.
    induction els as [|e els IH]; intros interp acc i' out H; cbn [read_species] in H.
    - injection H as <- <-. exists []. split; [constructor|]. split; [constructor|]. auto.
    - apply obind_ok in H. destruct H as (id & Hid & H). apply attr_ok in Hid. apply obind_ok in H. destruct H as (u1 & _ & H).
      apply obind_ok in H. destruct H as (name & Hname & H). apply attr_ok in Hname. apply obind_ok in H. destruct H as (u2 & _ & H).
      apply obind_ok in H. destruct H as ([i1 ps] & Hp & H). apply from_opt_ok in Hp. apply obind_ok in H. destruct H as (fs & Hf & H).
      apply obind_ok in H. destruct H as (i & Hi & H). apply from_opt_ok in Hi. cbn [fst snd] in H.
      apply read_parameters_env in Hp. destruct Hp as (defs & HE & -> & ->). apply IH in H. destruct H as (drs & HT & HF & -> & ->).
      exists ((defs, (i, {| sr_name := name; sr_params := store defs []; sr_funcs := fs |})) :: drs). split; [|split; [|split]].
      + cbn [map fst]. constructor; auto.
      + constructor; auto. exists id, name. cbn. auto 6.
      + cbn [map snd rev]. rewrite <- app_assoc. auto.
      + reflexivity.
  Qed.
  Definition re_read (declared : list Z) (e : reaction) (dr : list (str * V) * (Z * rrec V)) : Prop :=
    exists id type species, re_id e = Some id /\ re_type e = Some type /\ re_species e = Some species /\ stoi id = Some (fst (snd dr)) /\ rr_type (snd (snd dr)) = type /\
      rr_params (snd (snd dr)) = store (fst dr) [] /\ map stoi (split_on ","%char species) = map Some (rr_species (snd (snd dr))) /\ (forall i, In i (rr_species (snd (snd dr))) -> In i declared).
  Lemma reaction_species_ok declared items : forall l, reaction_species stoi declared items = Ok l -> map stoi items = map Some l /\ forall i, In i l -> In i declared.
  Proof.
    induction items as [|s items IH]; intros l H; cbn [reaction_species] in H.
    - injection H as <-. split; [auto|intros i []].
    - apply obind_ok in H. destruct H as (i & Hi & H). apply from_opt_ok in Hi. destruct (existsb (Z.eqb i) declared) eqn:E; [|discriminate].
      apply obind_ok in H. destruct H as (l' & Hl & H). injection H as <-. destruct (IH _ Hl) as [H1 H2]. split; [cbn; rewrite Hi, H1; auto|].
      intros j [<-|Hj]; auto. apply existsb_exists in E. destruct E as (x & Hx & E). apply Z.eqb_eq in E. subst. auto.
  Qed.
  Lemma read_reactions_ok declared els : forall interp acc i' out, read_reactions2 eval stoi declared els interp acc = Ok (i', out) ->
    exists drs, threads eval (map re_lines els) interp (map fst drs) /\ Forall2 (re_read declared) els drs /\ out = rev (map snd drs) ++ acc.
  Proof.
    induction els as [|e els IH]; intros interp acc i' out H; cbn [read_reactions2] in H.
    - injection H as <- <-. exists []. split; [constructor|]. split; [constructor|]. auto.
    - apply obind_ok in H. destruct H as (id & Hid & H). apply attr_ok in Hid. apply obind_ok in H. destruct H as (u1 & _ & H).
      apply obind_ok in H. destruct H as (type & Htype & H). apply attr_ok in Htype. apply obind_ok in H. destruct H as (u2 & _ & H).
      apply obind_ok in H. destruct H as (species & Hs & H). apply attr_ok in Hs. apply obind_ok in H. destruct H as (sl & Hsl & H). apply reaction_species_ok in Hsl. destruct Hsl as [Hsl1 Hsl2].
      apply obind_ok in H. destruct H as ([i1 ps] & Hp & H). apply from_opt_ok in Hp.
      apply obind_ok in H. destruct H as (i & Hi & H). apply from_opt_ok in Hi. cbn [fst snd] in H.
      apply read_parameters_env in Hp. destruct Hp as (defs & HE & -> & ->). apply IH in H. destruct H as (drs & HT & HF & ->).
      exists ((defs, (i, {| rr_type := type; rr_species := sl; rr_params := store defs [] |})) :: drs). split; [|split].
      + cbn [map fst]. constructor; auto.
      + constructor; auto. exists id, type, species. cbn. auto 9.
      + cbn [map snd rev]. rewrite <- app_assoc. auto.
  Qed.
  Lemma threads_app a b : forall env da db, threads eval a env da -> threads eval b (fold_left extend da env) db -> threads eval (a ++ b) env (da ++ db).
  Proof. intros env da db H. revert db. induction H; intros db H'; cbn [app fold_left] in *; auto. constructor; auto. Qed.
  Lemma zget_last {A} (m : list (Z * A)) i x : zget (rev m) i = Some x <-> exists k, last_at (fun kv => fst kv = i) m k (i, x).
  Proof.
    unfold zget. split.
    - destruct (find _ (rev m)) as [[j y]|] eqn:E; [|discriminate]. cbn. intros H. injection H as <-. pose proof E as E'. apply find_some in E'. destruct E' as [_ E']. cbn in E'. apply Z.eqb_eq in E'. subst.
      apply find_rev_last in E. destruct E as (k & E). exists k. revert E. apply last_at_ext. intros. rewrite Z.eqb_eq. tauto.
    - intros (k & H). assert (find (fun kv => Z.eqb (fst kv) i) (rev m) = Some (i, x)) as ->; [|auto]. apply find_rev_last. exists k. revert H. apply last_at_ext. intros. rewrite Z.eqb_eq. tauto.
  Qed.

  Lemma session_ok interp d s : read_particles eval stoi gen_vec gen_seqv gen_seq lex_bool interp d = Ok s ->
    exists pd srs rrs, threads eval (d_params d :: map sp_lines (d_species d) ++ map re_lines (d_reactions d)) interp (pd :: map fst srs ++ map fst rrs) /\
      se_params s = store pd [] /\ Forall2 sp_read (d_species d) srs /\ se_species s = rev (map snd srs) /\
      Forall2 (re_read (map fst (se_species s))) (d_reactions d) rrs /\ se_reactions s = rev (map snd rrs).
  Proof.
    unfold read_particles. intros H. apply obind_ok in H. destruct H as ([i1 ps] & Hp & H). apply from_opt_ok in Hp. apply read_parameters_env in Hp. destruct Hp as (pd & HE & -> & ->).
    cbn [fst snd] in H. apply obind_ok in H. destruct H as ([i2 sp] & Hs & H). apply read_species_ok in Hs. destruct Hs as (srs & HT & HF & -> & ->). rewrite app_nil_r in H. cbn [fst snd] in H.
    apply obind_ok in H. destruct H as (bs & _ & H). apply obind_ok in H. destruct H as ([i3 re] & Hr & H). apply read_reactions_ok in Hr. destruct Hr as (rrs & HT' & HF' & ->). rewrite app_nil_r in H. injection H as <-.
    exists pd, srs, rrs. cbn [se_params se_species se_reactions]. split; [|auto 8]. constructor; auto. apply threads_app; auto.
  Qed.
  Definition matched {E R : Type} (has : Z -> E -> Prop) (Rd : E -> list (str * V) * (Z * R) -> Prop) : Prop :=
    forall e dr, Rd e dr -> forall id, has id e <-> fst (snd dr) = id.
  Lemma lookup_last {E R : Type} (has : Z -> E -> Prop) (Rd : E -> list (str * V) * (Z * R) -> Prop) els drs id r :
    matched has Rd -> Forall2 Rd els drs ->
    (zget (rev (map snd drs)) id = Some r <-> exists k e defs, last_at (has id) els k e /\ nth_error drs k = Some (defs, (id, r)) /\ Rd e (defs, (id, r))).
  Proof.
    intros HM HF. rewrite zget_last.
    pose proof (Forall2_last Rd (has id) (fun dr => fst (snd dr) = id) els drs HF (fun a b H => HM a b H id)) as L. split.
    - intros (k & H). apply last_at_map in H. destruct H as ([defs [i r']] & E0 & H). cbn [snd] in E0. injection E0 as <- <-. apply L in H. destruct H as (e & H1 & H2 & H3). exists k, e, defs. auto.
    - intros (k & e & defs & H1 & H2 & H3). exists k. apply last_at_map. exists (defs, (id, r)). split; [auto|]. apply L. exists e. auto.
  Qed.
  Lemma matched_sp : matched (species_id stoi) sp_read.
  Proof.
    intros e dr (id & name & Hid & _ & Hs & _) i. unfold species_id. split.
    - intros (t & Ht & Hi). congruence.
    - intros <-. exists id. auto.
  Qed.
  Lemma matched_re declared : matched (reaction_id stoi) (re_read declared).
  Proof.
    intros e dr (id & type & sp & Hid & _ & _ & Hs & _) i. unfold reaction_id. split.
    - intros (t & Ht & Hi). congruence.
    - intros <-. exists id. auto.
  Qed.
  Lemma load_iff {R : Type} (zs : list (Z * R)) (ps : R -> smap V) id name v :
    obind (from_opt (zget zs id)) (fun r => from_opt (sget (ps r) (to_upper name))) = Ok v <-> exists r, zget zs id = Some r /\ sget (ps r) (to_upper name) = Some v.
  Proof. rewrite obind_ok. split; intros (r & H1 & H2); exists r; split; apply from_opt_ok; auto. Qed.
  Theorem session_parameters interp d s : read_particles eval stoi gen_vec gen_seqv gen_seq lex_bool interp d = Ok s ->
    exists pd sds rds, threads eval (d_params d :: map sp_lines (d_species d) ++ map re_lines (d_reactions d)) interp (pd :: sds ++ rds) /\
      length sds = length (d_species d) /\ length rds = length (d_reactions d) /\
      (forall name v, get_parameter (se_params s) name = Some v <-> last_definition pd name v) /\
      (forall id name v, load_species_double s id name = Ok v <->
         exists k e defs, last_at (species_id stoi id) (d_species d) k e /\ nth_error sds k = Some defs /\ last_definition defs name v) /\
      (forall id name v, load_reaction_double s id name = Ok v <->
         exists k e defs, last_at (reaction_id stoi id) (d_reactions d) k e /\ nth_error rds k = Some defs /\ last_definition defs name v).
  Proof.
    intros H. destruct (session_ok interp d s H) as (pd & srs & rrs & HT & Hp & HS & Es & HR & Er).
    exists pd, (map fst srs), (map fst rrs). split; [auto|]. split; [rewrite map_length; symmetry; eapply F2len; eauto|].
    split; [rewrite map_length; symmetry; eapply F2len; eauto|]. split; [|split].
    - intros name v. unfold get_parameter. rewrite Hp. apply store_get.
    - intros id name v. unfold load_species_double. rewrite load_iff, Es. split.
      + intros (r & Hz & Hg). apply (lookup_last _ _ _ _ _ _ matched_sp HS) in Hz. destruct Hz as (k & e & defs & H1 & H2 & H3). exists k, e, defs. split; [auto|].
        split; [rewrite nth_error_map, H2; auto|]. destruct H3 as (x & y & _ & _ & _ & _ & E & _). cbn [fst snd] in E. rewrite E in Hg. apply store_get. auto.
      + intros (k & e & defs & H1 & H2 & H3). rewrite nth_error_map in H2. destruct (nth_error srs k) as [[defs' [i r]]|] eqn:E; [|discriminate]. cbn in H2. injection H2 as ->.
        assert (HRd : sp_read e (defs, (i, r))). { clear - HS H1 E. destruct H1 as (H1 & _). revert k H1 E. induction HS; intros [|k] H1 E; cbn in *; try discriminate; [congruence|eauto]. }
        assert (i = id) by (apply (matched_sp _ _ HRd id); apply H1). subst i.
        exists r. split; [apply (lookup_last _ _ _ _ _ _ matched_sp HS); exists k, e, defs; auto|]. destruct HRd as (x & y & _ & _ & _ & _ & E' & _). cbn [fst snd] in E'. rewrite E'. apply store_get. auto.
    - intros id name v. unfold load_reaction_double. rewrite load_iff, Er. split.
      + intros (r & Hz & Hg). apply (lookup_last _ _ _ _ _ _ (matched_re _) HR) in Hz. destruct Hz as (k & e & defs & H1 & H2 & H3). exists k, e, defs. split; [auto|].
        split; [rewrite nth_error_map, H2; auto|]. destruct H3 as (x & y & z & _ & _ & _ & _ & _ & E & _). cbn [fst snd] in E. rewrite E in Hg. apply store_get. auto.
      + intros (k & e & defs & H1 & H2 & H3). rewrite nth_error_map in H2. destruct (nth_error rrs k) as [[defs' [i r]]|] eqn:E; [|discriminate]. cbn in H2. injection H2 as ->.
        assert (HRd : re_read (map fst (se_species s)) e (defs, (i, r))). { clear - HR H1 E. destruct H1 as (H1 & _). revert k H1 E. induction HR; intros [|k] H1 E; cbn in *; try discriminate; [congruence|eauto]. }
        assert (i = id) by (apply (matched_re _ _ _ HRd id); apply H1). subst i.
        exists r. split; [apply (lookup_last _ _ _ _ _ _ (matched_re _) HR); exists k, e, defs; auto|]. destruct HRd as (x & y & z & _ & _ & _ & _ & _ & E' & _). cbn [fst snd] in E'. rewrite E'. apply store_get. auto.
  Qed.
  Theorem session_reactions interp d s id r : read_particles eval stoi gen_vec gen_seqv gen_seq lex_bool interp d = Ok s -> zget (se_reactions s) id = Some r ->
    exists k e t, last_at (reaction_id stoi id) (d_reactions d) k e /\ re_species e = Some t /\ re_type e = Some (rr_type r) /\
      (exists parts, parts <> [] /\ join ","%char parts = t /\ (forall p, In p parts -> ~ In ","%char p) /\ map stoi parts = map Some (rr_species r)) /\
      forall i, In i (rr_species r) -> exists e', In e' (d_species d) /\ species_id stoi i e'.
  Proof.
    intros H Hz. destruct (session_ok interp d s H) as (pd & srs & rrs & _ & _ & HS & Es & HR & Er). rewrite Er in Hz.
    apply (lookup_last _ _ _ _ _ _ (matched_re _) HR) in Hz. destruct Hz as (k & e & defs & H1 & H2 & (x & ty & t & _ & G2 & G3 & _ & G4 & _ & G5 & G6)). cbn [fst snd] in *.
    exists k, e, t. split; [auto|]. split; [auto|]. split; [congruence|]. split.
    - exists (split_on ","%char t). split; [apply split_nonnil|]. split; [apply join_split|]. split; [intros p; apply split_free|auto].
    - intros i Hi. specialize (G6 i Hi). rewrite Es, map_rev, <- in_rev in G6. apply in_map_iff in G6. destruct G6 as ([i' sr] & <- & G6). apply in_map_iff in G6. destruct G6 as ([defs' [j r']] & E & G6). cbn [snd] in E. injection E as -> ->.
      clear - HS G6. induction HS as [|e dr es drs Hd HS IH]; [destruct G6|]. destruct G6 as [->|G6].
      + exists e. split; [left; auto|]. apply (matched_sp _ _ Hd). reflexivity.
      + destruct (IH G6) as (e' & He & Hid). exists e'. split; [right|]; auto.
  Qed.
  Theorem session_species interp d s id r : read_particles eval stoi gen_vec gen_seqv gen_seq lex_bool interp d = Ok s -> zget (se_species s) id = Some r ->
    exists k e, last_at (species_id stoi id) (d_species d) k e /\ sp_name e = Some (sr_name r) /\ (forall b, In b (sp_funcs e) -> function_ok gen_vec gen_seqv lex_bool b) /\
      forall name v dom f, function_def (sr_funcs r) name v dom = Some f <->
        exists j b en, last_at (named name) (sp_funcs e) j b /\ In en (fb_entries b) /\ entry_def gen_vec gen_seqv lex_bool en v dom f.
  Proof.
    intros H Hz. destruct (session_ok interp d s H) as (pd & srs & rrs & _ & _ & HS & Es & _ & _). rewrite Es in Hz.
    apply (lookup_last _ _ _ _ _ _ matched_sp HS) in Hz. destruct Hz as (k & e & defs & H1 & H2 & (x & n & _ & G2 & _ & G4 & _ & G5)). cbn [fst snd] in *.
    exists k, e. split; [auto|]. split; [congruence|]. split; [apply functions_accepted; eauto|]. intros name v dom f. apply functions_lookup. auto.
  Qed.

  (** acceptance *)
  Hypothesis stoi_nil : stoi [] = None.
  Lemma evaluated_env lines interp defs : evaluated eval lines interp defs -> forall params,
    read_parameters eval lines interp params = Some (extend interp defs, store defs params).
  Proof.
    induction 1 as [|line lines interp name value v defs HA Ev HE IH]; intros params; cbn [read_parameters]; auto.
    pose proof HA as HA'. destruct HA' as (a & b & c & d & _ & (Tl & _) & (Tr & _) & _). apply parse_equals_iff in HA. rewrite HA. cbn [bindo fst snd].
    destruct name as [|x name]; [congruence|]. destruct value as [|y value]; [congruence|]. rewrite Ev. cbn [bindo]. rewrite IH. reflexivity.
  Qed.
  Lemma stoi_nonempty s i : stoi s = Some i -> nonempty s = Ok tt.
  Proof. destruct s; [congruence|auto]. Qed.
  Lemma threads_split a b : forall env dss, threads eval (a ++ b) env dss -> exists da db, dss = da ++ db /\ threads eval a env da /\ threads eval b (fold_left extend da env) db.
  Proof.
    induction a as [|l a IH]; intros env dss H; cbn [app] in H.
    - exists [], dss. split; [auto|]. split; [constructor|auto].
    - inversion H as [|? ? ? defs dss' H1 H2]. subst. apply IH in H2. destruct H2 as (da & db & -> & H2 & H3). exists (defs :: da), db. split; [auto|]. split; [constructor; auto|auto].
  Qed.
  Lemma read_species_accepts els : forall interp acc dss, threads eval (map sp_lines els) interp dss -> (forall e, In e els -> species_ok stoi gen_vec gen_seqv lex_bool e) ->
    exists out, read_species eval stoi gen_vec gen_seqv lex_bool els interp acc = Ok (fold_left extend dss interp, out).
  Proof.
    induction els as [|e els IH]; intros interp acc dss HT HS; cbn [read_species map] in *.
    - inversion HT. subst. eexists. reflexivity.
    - inversion HT as [|? ? ? defs dss' H1 H2]. subst. destruct (HS e (or_introl eq_refl)) as ((id & t & Ht & Hi) & (n & Hn & Hnn) & Hf).
      apply functions_accepted in Hf. destruct Hf as (fm & Hf). rewrite Ht, Hn. cbn [attr obind]. rewrite (stoi_nonempty t id Hi). destruct n as [|c n]; [congruence|]. cbn [nonempty obind].
      rewrite (evaluated_env _ _ _ H1). cbn [from_opt obind fst snd]. rewrite Hf. cbn [obind]. rewrite Hi. cbn [from_opt obind].
      cbn [fold_left]. apply IH; auto. intros e' He. apply HS. right. auto.
  Qed.
  Lemma reaction_species_accepts declared items : (forall p, In p items -> exists i, stoi p = Some i /\ In i declared) -> exists l, reaction_species stoi declared items = Ok l.
  Proof.
    induction items as [|p items IH]; intros H; cbn [reaction_species]; [eexists; reflexivity|].
    destruct (H p (or_introl eq_refl)) as (i & Hi & Hd). rewrite Hi. cbn [from_opt obind].
    assert (existsb (Z.eqb i) declared = true) as -> by (apply existsb_exists; exists i; split; auto; apply Z.eqb_refl).
    destruct IH as (l & ->); [intros q Hq; apply H; right; auto|]. eexists. reflexivity.
  Qed.
  Lemma read_reactions_accepts declared els : forall interp acc dss, threads eval (map re_lines els) interp dss ->
    (forall e, In e els -> (exists id, reaction_id stoi id e) /\ filled (re_type e) /\ exists t, re_species e = Some t /\ forall p, In p (split_on ","%char t) -> exists i, stoi p = Some i /\ In i declared) ->
    exists out, read_reactions2 eval stoi declared els interp acc = Ok out.
  Proof.
    induction els as [|e els IH]; intros interp acc dss HT HS; cbn [read_reactions2 map] in *.
    - eexists. reflexivity.
    - inversion HT as [|? ? ? defs dss' H1 H2]. subst. destruct (HS e (or_introl eq_refl)) as ((id & t & Ht & Hi) & (n & Hn & Hnn) & (sp & Hsp & Hp)).
      rewrite Ht, Hn, Hsp. cbn [attr obind]. rewrite (stoi_nonempty t id Hi). destruct n as [|c n]; [congruence|]. cbn [nonempty obind].
      destruct (reaction_species_accepts _ _ Hp) as (l & ->). cbn [obind].
      rewrite (evaluated_env _ _ _ H1). cbn [from_opt obind fst snd]. rewrite Hi. cbn [from_opt obind].
      eapply IH; [eauto|intros e0 He; apply HS; right; auto].
  Qed.
  Lemma nonempty_ok s u : nonempty s = Ok u -> s <> [].
  Proof. destruct s; discriminate. Qed.
  Lemma read_species_shape els : forall interp acc i' out, read_species eval stoi gen_vec gen_seqv lex_bool els interp acc = Ok (i', out) -> forall e, In e els -> species_ok stoi gen_vec gen_seqv lex_bool e.
  Proof.
    induction els as [|e els IH]; intros interp acc i' out H e0 He; [destruct He|]; cbn [read_species] in H.
    apply obind_ok in H. destruct H as (id & Hid & H). apply attr_ok in Hid. apply obind_ok in H. destruct H as (u1 & _ & H).
    apply obind_ok in H. destruct H as (name & Hname & H). apply attr_ok in Hname. apply obind_ok in H. destruct H as (u2 & Hu & H). apply nonempty_ok in Hu.
    apply obind_ok in H. destruct H as ([i1 ps] & Hp & H). apply obind_ok in H. destruct H as (fs & Hf & H).
    apply obind_ok in H. destruct H as (i & Hi & H). apply from_opt_ok in Hi. destruct He as [<-|He]; [|eapply IH; eauto].
    split; [exists i, id; auto|]. split; [exists name; auto|]. apply functions_accepted. eauto.
  Qed.
  Lemma read_reactions_shape declared els : forall interp acc out, read_reactions2 eval stoi declared els interp acc = Ok out -> forall e, In e els ->
    (exists id, reaction_id stoi id e) /\ filled (re_type e) /\ exists t l, re_species e = Some t /\ map stoi (split_on ","%char t) = map Some l /\ forall i, In i l -> In i declared.
  Proof.
    induction els as [|e els IH]; intros interp acc out H e0 He; [destruct He|]; cbn [read_reactions2] in H.
    apply obind_ok in H. destruct H as (id & Hid & H). apply attr_ok in Hid. apply obind_ok in H. destruct H as (u1 & _ & H).
    apply obind_ok in H. destruct H as (type & Htype & H). apply attr_ok in Htype. apply obind_ok in H. destruct H as (u2 & Hu & H). apply nonempty_ok in Hu.
    apply obind_ok in H. destruct H as (species & Hs & H). apply attr_ok in Hs. apply obind_ok in H. destruct H as (sl & Hsl & H). apply reaction_species_ok in Hsl. destruct Hsl as [Hsl1 Hsl2].
    apply obind_ok in H. destruct H as ([i1 ps] & Hp & H). apply obind_ok in H. destruct H as (i & Hi & H). apply from_opt_ok in Hi. destruct He as [<-|He]; [|eapply IH; eauto].
    split; [exists i, id; auto|]. split; [exists type; auto|]. exists species, sl. auto.
  Qed.
  Lemma declared_species els drs i : Forall2 sp_read els drs -> (In i (map fst (map snd drs)) <-> exists e, In e els /\ species_id stoi i e).
  Proof.
    induction 1 as [|e dr es drs Hd HF IH]; cbn [map In]; [firstorder|]. rewrite IH, <- (matched_sp _ _ Hd i). split.
    - intros [H|(e' & H1 & H2)]; [exists e|exists e']; auto.
    - intros (e' & [<-|H1] & H2); [left|right; exists e']; auto.
  Qed.
  Lemma map_some_in {A B} (f : A -> option B) l r p : map f l = map Some r -> In p l -> exists y, f p = Some y /\ In y r.
  Proof.
    revert r. induction l as [|x l IH]; intros [|y r] H Hp; try discriminate; [destruct Hp|]. cbn in H; injection H as H1 H2. destruct Hp as [<-|Hp].
    - exists y. split; [auto|left; auto].
    - destruct (IH r H2 Hp) as (z & Hz & Hz'). exists z. split; [auto|right; auto].
  Qed.
  Theorem session_accepted interp d : (exists s, read_particles eval stoi gen_vec gen_seqv gen_seq lex_bool interp d = Ok s) <-> document_ok eval stoi gen_vec gen_seqv gen_seq lex_bool interp d.
  Proof.
    split.
    - intros (s & H). pose proof (session_ok interp d s H) as (pd & srs & rrs & HT & _). unfold document_ok. split; [eauto|].
      unfold read_particles in H. apply obind_ok in H. destruct H as ([i1 ps] & Hp & H). cbn [fst snd] in H.
      apply obind_ok in H. destruct H as ([i2 sp] & Hs & H). cbn [fst snd] in H. pose proof (read_species_shape _ _ _ _ _ Hs) as HS. split; [auto|].
      apply read_species_ok in Hs. destruct Hs as (srs' & _ & HF & -> & _). rewrite app_nil_r in H.
      apply obind_ok in H. destruct H as (bs & Hb & H). apply from_opt_ok in Hb. unfold read_boundary in Hb.
      destruct (proj1 (regions_iff stoi gen_seq stoi_nil _ _ _) (ex_intro _ bs Hb)) as (B1 & _ & B3). split; [auto|]. split; [eauto|].
      apply obind_ok in H. destruct H as (ire & Hr & _). intros e He.
      destruct (read_reactions_shape _ _ _ _ _ Hr e He) as (R1 & R2 & (t & l & R3 & R4 & R5)). split; [auto|]. split; [auto|].
      exists (split_on ","%char t). split.
      + split; [apply split_nonnil|]. split; [rewrite join_split; auto|intros p; apply split_free].
      + intros p Hp'. destruct (map_some_in _ _ _ p R4 Hp') as (i & Hi & Hl). apply R5 in Hl. rewrite map_rev, <- in_rev in Hl.
        apply (declared_species _ _ i HF) in Hl. destruct Hl as (e' & H1 & H2). exists i, e'. auto.
    - intros ((dss & HT) & HS & HN & HC & HR). inversion HT as [|? ? ? pd dss' H1 H2]. subst. apply threads_split in H2. destruct H2 as (sds & rds & -> & H2 & H3).
      unfold read_particles. rewrite (evaluated_env _ _ _ H1). cbn [from_opt obind fst snd].
      destruct (read_species_accepts _ _ [] _ H2 HS) as (out & Hs). rewrite Hs. cbn [obind fst snd].
      destruct (proj2 (regions_iff stoi gen_seq stoi_nil (map fst out) (d_regions d) [])) as (bs & Hb).
      { split; [auto|]. split; [intros r _ []|auto]. }
      unfold read_boundary. rewrite Hb. cbn [from_opt obind].
      apply read_species_ok in Hs. destruct Hs as (srs' & _ & HF & -> & _). rewrite app_nil_r.
      destruct (read_reactions_accepts (map fst (rev (map snd srs'))) (d_reactions d) (fold_left extend sds (extend interp pd)) [] rds H3) as (o & ->).
      { intros e He. destruct (HR e He) as (R1 & R2 & (parts & (P1 & P2 & P3) & P4)). split; [auto|]. split; [auto|]. exists (join ","%char parts). split; [auto|].
        rewrite split_join; auto. intros p Hp. destruct (P4 p Hp) as (i & e' & Hi & He' & Hid). exists i. split; [auto|].
        rewrite map_rev, <- in_rev. apply (declared_species _ _ i HF). eauto. }
      cbn [obind]. eauto.
  Qed.
End SessionProof.

(** loads *)
Lemma session_ints {V} (round : V -> Z) (s : session V) id name z :
  (load_species_int round s id name = Ok z <-> exists v, load_species_double s id name = Ok v /\ round v = z /\ (-2147483648 <= z <= 2147483647)%Z) /\
  (load_reaction_int round s id name = Ok z <-> exists v, load_reaction_double s id name = Ok v /\ round v = z /\ (-2147483648 <= z <= 2147483647)%Z).
Proof.
  unfold load_species_int, load_reaction_int. rewrite !obind_ok. split; split; intros (v & H1 & H2); exists v; split; auto; [apply from_opt_ok in H2; apply checked_int_iff in H2; auto|apply from_opt_ok, checked_int_iff; auto|apply from_opt_ok in H2; apply checked_int_iff in H2; auto|apply from_opt_ok, checked_int_iff; auto].
Qed.
Lemma session_missing {V} (s : session V) id name :
  ((forall v, load_species_double s id name <> Ok v) -> load_species_double s id name = AssertFail) /\
  ((forall v, load_reaction_double s id name <> Ok v) -> load_reaction_double s id name = AssertFail).
Proof.
  unfold load_species_double, load_reaction_double. split; intros H.
  - destruct (zget (se_species s) id) as [r|]; cbn [from_opt obind] in *; [|auto]. destruct (sget _ _) as [v|]; cbn [from_opt] in *; [exfalso; apply (H v); auto|auto].
  - destruct (zget (se_reactions s) id) as [r|]; cbn [from_opt obind] in *; [|auto]. destruct (sget _ _) as [v|]; cbn [from_opt] in *; [exfalso; apply (H v); auto|auto].
Qed.
