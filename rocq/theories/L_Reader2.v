(** Proofs about species, functions and reactions of the session reader. *)
From Coq Require Import String.
From Verif Require Import M_Reader2 S_Reader2 L_Reader.
From Coq Require Import Permutation Lia List.
Import ListNotations.
Open Scope list_scope.

Lemma from_opt_ok {A} (x : option A) a : from_opt x = Ok a <-> x = Some a.
Proof. destruct x; cbn; split; congruence. Qed.
Lemma attr_ok x a : attr x = Ok a <-> x = Some a.
Proof. destruct x; cbn; split; congruence. Qed.
Lemma nonempty_ok s u : nonempty s = Ok u <-> s <> [].
Proof. destruct s; cbn; destruct u; split; congruence. Qed.
Lemma obind_ok {A B} (x : outcome A) (f : A -> outcome B) b : obind x f = Ok b <-> exists a, x = Ok a /\ f a = Ok b.
Proof. destruct x; cbn; split; try discriminate; eauto; intros (a' & E & H); congruence. Qed.

(** split *)
Lemma split_nonnil c s : split_on c s <> [].
Proof. destruct s; cbn; [discriminate|]. destruct (Ascii.eqb a c); [discriminate|]. destruct (split_on c s); discriminate. Qed.
Lemma join_split c s : join c (split_on c s) = s.
Proof.
  induction s as [|a s IH]; cbn [split_on]; [reflexivity|]. destruct (Ascii.eqb_spec a c) as [->|H].
  - destruct (split_on c s) as [|t ts] eqn:E; [destruct (split_nonnil c s E)|]. cbn [join]. rewrite <- IH. reflexivity.
  - destruct (split_on c s) as [|t ts] eqn:E; [destruct (split_nonnil c s E)|]. rewrite <- IH. destruct ts; reflexivity.
Qed.
Lemma split_free c s p : In p (split_on c s) -> ~ In c p.
Proof.
  revert p. induction s as [|a s IH]; intros p; cbn [split_on].
  - intros [<-|[]]; auto.
  - destruct (Ascii.eqb_spec a c) as [->|H].
    + intros [<-|Hp]; auto.
    + destruct (split_on c s) as [|t ts] eqn:E; [destruct (split_nonnil c s E)|]. intros [<-|Hp]; [|apply IH; right; auto].
      intros [X|X]; [congruence|]. apply (IH t); [left|]; auto.
Qed.
Lemma split_part c p r : ~ In c p -> split_on c (p ++ c :: r) = p :: split_on c r.
Proof.
  induction p as [|a p IH]; intros H; cbn [app split_on].
  - rewrite Ascii.eqb_refl. reflexivity.
  - destruct (Ascii.eqb_spec a c) as [->|_]; [exfalso; apply H; left; auto|]. rewrite IH; auto. intros X. apply H. right. auto.
Qed.
Lemma split_one c p : ~ In c p -> split_on c p = [p].
Proof.
  induction p as [|a p IH]; intros H; [reflexivity|]. cbn [split_on].
  destruct (Ascii.eqb_spec a c) as [->|_]; [exfalso; apply H; left; auto|]. rewrite IH; auto. intros X. apply H. right. auto.
Qed.
Lemma split_join c parts : parts <> [] -> (forall p, In p parts -> ~ In c p) -> split_on c (join c parts) = parts.
Proof.
  induction parts as [|p parts IH]; intros H HI; [congruence|]. destruct parts as [|q parts].
  - cbn [join]. apply split_one. apply HI. left. auto.
  - change (join c (p :: q :: parts)) with (p ++ c :: join c (q :: parts)). rewrite split_part by (apply HI; left; auto). rewrite IH; [auto|discriminate|]. intros x Hx. apply HI. right. auto.
Qed.

(** * Functions *)
Section FunctionsProof.
  Variable gen_vec : str -> list str.
  Variable gen_seqv : str -> list Z.
  Variable lex_bool : str -> option bool.
  Notation parse_entry := (parse_entry gen_vec lex_bool).
  Notation vars_of := (vars_of gen_vec).
  Notation doms_of := (doms_of gen_seqv).
  Notation entry_kind := (entry_kind gen_vec lex_bool).
  Notation entry_keys := (entry_keys gen_vec gen_seqv).
  Definition fvs_of (e : fentry) (vs : list str) : list str := match vs with [] => repeat [] (length (vars_of e)) | _ => vs end.
  Lemma evars_eq e : evars_of e = evaluation_variables e.
  Proof. unfold evars_of, evaluation_variables. destruct (en_evars e); [reflexivity|]. rewrite app_nil_r. reflexivity. Qed.
  Lemma transient_ok e b : match en_time e with None => Ok false | Some t => from_opt (lex_bool t) end = Ok b <-> transient lex_bool e b.
  Proof. unfold transient. destruct (en_time e); [apply from_opt_ok|]. split; intros; congruence. Qed.
  Lemma str_eqb_refl s : str_eqb s s = true.
  Proof. apply str_eqb_eq. auto. Qed.
  Lemma parse_sound e k vs : parse_entry e = Ok (k, vs) -> entry_kind e k (fvs_of e vs).
  Proof.
    unfold M_Reader2.parse_entry. destruct (str_eqb (en_tag e) tagE) eqn:E1.
    - apply str_eqb_eq in E1. rewrite obind_ok. intros (v & Hv & H). apply from_opt_ok in Hv. apply obind_ok in H. destruct H as (u & Hn & H).
      apply nonempty_ok in Hn. injection H as <- <-. rewrite evars_eq. apply ek_expr; auto.
    - destruct (str_eqb (en_tag e) tagF) eqn:E2; [|discriminate]. apply str_eqb_eq in E2.
      rewrite obind_ok. intros (b & Hb & H). apply transient_ok in Hb. apply obind_ok in H. destruct H as (file & Hf & H). apply from_opt_ok in Hf.
      apply obind_ok in H. destruct H as (u & Hn & H). apply nonempty_ok in Hn.
      pose proof (join_split ":"%char file) as J. pose proof (split_free ":"%char file) as F.
      destruct (split_on ":"%char file) as [|n [|m [|]]]; try discriminate.
      + injection H as <- <-. cbn [join] in J. subst file. change (if b then FTransient n else FFile n) with (file_kind b n). apply ek_file; auto. apply F. left. auto.
      + change (join ":"%char [n; m]) with (n ++ ":"%char :: m) in J. destruct (vars_of e) as [|v0 vl] eqn:Ev; [discriminate|].
        destruct (str_eqb v0 star) eqn:Es; [discriminate|]. destruct (Nat.eqb_spec (length (split_on ","%char m)) (length (v0 :: vl))) as [L|]; [|discriminate].
        injection H as <- <-. change (if b then FTransient n else FFile n) with (file_kind b n).
        assert (fvs_of e (split_on ","%char m) = split_on ","%char m) as -> by (unfold fvs_of; destruct (split_on ","%char m) eqn:X; [destruct (split_nonnil _ _ X)|auto]).
        apply ek_map; auto.
        * rewrite join_split, Hf, <- J. reflexivity.
        * apply F. left. auto.
        * rewrite join_split. apply F. right. left. auto.
        * intros f. apply split_free.
        * apply split_nonnil.
        * unfold variables. change (gen_vec _) with (vars_of e). rewrite Ev. auto.
        * unfold variables. change (gen_vec _) with (vars_of e). rewrite Ev. cbn. intros X. injection X as ->. change (list_ascii_of_string "*") with star in Es. rewrite str_eqb_refl in Es. discriminate.
  Qed.
  Lemma parse_complete e k fvs : entry_kind e k fvs -> exists vs, parse_entry e = Ok (k, vs) /\ fvs_of e vs = fvs.
  Proof.
    intros [value T Hv Hn|n b T Ht Hf Hn Hc|n f b T Ht Hf Hc1 Hc2 Hcs Hne Hl Hh]; unfold M_Reader2.parse_entry.
    - exists []. split; [|reflexivity]. change (list_ascii_of_string "E") with tagE in T. rewrite T, str_eqb_refl, Hv. cbn [from_opt obind].
      destruct value; [congruence|]. cbn [nonempty obind]. rewrite evars_eq. reflexivity.
    - exists []. split; [|reflexivity]. change (list_ascii_of_string "F") with tagF in T. rewrite T. change (str_eqb tagF tagE) with false. cbn iota. rewrite str_eqb_refl.
      rewrite (proj2 (transient_ok e b) Ht). cbn [obind]. rewrite Hf. cbn [from_opt obind]. rewrite split_one by auto. destruct n; [congruence|]. reflexivity.
    - exists f. split; [|destruct f; [congruence|reflexivity]]. change (list_ascii_of_string "F") with tagF in T. rewrite T. change (str_eqb tagF tagE) with false. cbn iota. rewrite str_eqb_refl.
      rewrite (proj2 (transient_ok e b) Ht). cbn [obind]. rewrite Hf. cbn [from_opt obind].
      rewrite split_part by auto. rewrite (split_one ":"%char (join ","%char f)) by auto.
      assert (nonempty (n ++ ":"%char :: join ","%char f) = Ok tt) as -> by (destruct n; reflexivity). cbn [obind].
      change (variables gen_vec e) with (vars_of e) in *. destruct (vars_of e) as [|v0 vl]; [destruct f; [congruence|discriminate]|].
      destruct (str_eqb v0 star) eqn:Es. { apply str_eqb_eq in Es. subst. exfalso. apply Hh. reflexivity. }
      rewrite split_join by auto. rewrite Hl, Nat.eqb_refl. reflexivity.
  Qed.
  Lemma kind_unique e k k' f f' : entry_kind e k f -> entry_kind e k' f' -> k = k' /\ f = f'.
  Proof. intros H H'. apply parse_complete in H, H'. destruct H as (v & H & <-), H' as (v' & H' & <-). rewrite H in H'. injection H' as <- <-. auto. Qed.
  Lemma kind_length e k f : entry_kind e k f -> length f = length (vars_of e).
  Proof. intros [| |]; auto; rewrite repeat_length; reflexivity. Qed.

  (** keys *)
  Definition all_keys (e : fentry) (k : fkind) (fvs : list str) : fvmap :=
    flat_map (fun vf => map (fun j => ((fst vf, j), {| fd_kind := k; fd_filevar := snd vf |})) (doms_of e)) (combine (vars_of e) fvs).
  Lemma entry_keys_eq e k vs : entry_keys e k vs = all_keys e k (fvs_of e vs).
  Proof. reflexivity. Qed.
  Definition keyset (e : fentry) : list (str * Z) := flat_map (fun v => map (fun j => (v, j)) (doms_of e)) (vars_of e).
  Lemma all_keys_fst e k fvs : length fvs = length (vars_of e) -> map fst (all_keys e k fvs) = keyset e.
  Proof.
    unfold all_keys, keyset. generalize (vars_of e) as vl. intros vl. revert fvs. induction vl as [|v vl IH]; intros [|f fvs] L; try discriminate; [reflexivity|].
    cbn [combine flat_map]. rewrite map_app, IH by (cbn in L; lia). rewrite map_map. reflexivity.
  Qed.
  Lemma in_all_keys e k fvs v d f : entry_kind e k fvs -> In ((v, d), f) (all_keys e k fvs) <-> entry_def gen_vec gen_seqv lex_bool e v d f.
  Proof.
    intros Hk. unfold all_keys. rewrite in_flat_map. unfold entry_def, entry_key. change (variables gen_vec e) with (vars_of e). change (domains gen_seqv e) with (doms_of e). split.
    - intros ([v' fv] & Hin & H). apply in_map_iff in H. destruct H as (j & E & Hj). cbn [fst snd] in E. injection E as -> -> <-.
      apply In_nth_error in Hin. destruct Hin as (i & Ei). apply In_nth_error in Hj. destruct Hj as (jj & Ej).
      exists k, fvs, i, jj, fv. split; [auto|].
      assert (nth_error (vars_of e) i = Some v /\ nth_error fvs i = Some fv) as [G1 G2]; [|auto].
      revert Ei. generalize (vars_of e) as vl. clear. intros vl. revert fvs i. induction vl as [|x vl IH]; intros [|y fvs] [|i]; cbn; intros E; try discriminate; [injection E as <- <-; auto|]. apply IH. auto.
    - intros (k' & fvs' & i & j & fv & Hk' & (Hi & Hj) & Hf & ->). destruct (kind_unique _ _ _ _ _ Hk Hk') as [<- <-].
      exists (v, fv). split.
      + revert Hi Hf. generalize (vars_of e) as vl. clear. intros vl. revert fvs i. induction vl as [|x vl IH]; intros [|y fvs] [|i]; cbn; intros E1 E2; try discriminate; [left; congruence|]. right. eapply IH; eauto.
      + apply in_map_iff. exists d. split; [reflexivity|]. apply nth_error_In with j. auto.
  Qed.
  Lemma key_eqb_eq a b : key_eqb a b = true <-> a = b.
  Proof. unfold key_eqb. destruct a, b. cbn [fst snd]. rewrite andb_true_iff, str_eqb_eq, Z.eqb_eq. split; [intros [-> ->]; auto|intros H; injection H; auto]. Qed.
  Lemma has_key (m : fvmap) k : existsb (fun kv => key_eqb (fst kv) k) m = true <-> In k (map fst m).
  Proof. rewrite existsb_exists, in_map_iff. split; intros (x & H1 & H2); exists x; [apply key_eqb_eq in H2; auto|split; [auto|apply key_eqb_eq; auto]]. Qed.
  Lemma add_keys_ok keys : forall m m', NoDup (map fst m) -> (add_keys keys m = Ok m' <-> NoDup (map fst keys ++ map fst m) /\ m' = rev keys ++ m).
  Proof.
    induction keys as [|[k d] keys IH]; intros m m' N; cbn [add_keys map app fst].
    - split; [intros H; injection H as <-; auto|intros [_ ->]; reflexivity].
    - destruct (existsb _ m) eqn:E.
      + apply has_key in E. split; [discriminate|]. intros [H _]. inversion H as [|? ? Hn _]. exfalso. apply Hn. apply in_or_app. auto.
      + assert (Hk : ~ In k (map fst m)) by (intros X; apply has_key in X; congruence).
        rewrite IH by (cbn; constructor; auto). cbn [map fst rev]. rewrite <- app_assoc. cbn [app].
        assert (P : forall l r, NoDup (l ++ k :: r) <-> NoDup (k :: l ++ r)).
        { intros l r. split; intros H; [apply NoDup_remove in H; constructor; tauto|]. inversion H. apply NoDup_Add with (a := k) (l := l ++ r); [apply Add_app|]. auto. }
        rewrite P. tauto.
  Qed.
  (** entries: [Ds] their kinds *)
  Lemma read_entries_ok es : forall m m', NoDup (map fst m) ->
    (read_entries gen_vec gen_seqv lex_bool es m = Ok m' <->
     exists ks, Forall2 (fun e kf => entry_kind e (fst kf) (snd kf)) es ks /\ NoDup (flat_map keyset (rev es) ++ map fst m) /\
       m' = flat_map (fun ekf => rev (all_keys (fst ekf) (fst (snd ekf)) (snd (snd ekf)))) (rev (combine es ks)) ++ m).
  Proof.
    induction es as [|e es IH]; intros m m' N; cbn [read_entries].
    - split; [intros H; injection H as <-; exists []; split; [constructor|]; auto|]. intros (ks & HF & _ & ->). inversion HF. reflexivity.
    - rewrite obind_ok. split.
      + intros ([k vs] & Hp & H). cbn [fst snd] in H. apply obind_ok in H. destruct H as (m1 & Ha & H). rewrite entry_keys_eq in Ha.
        pose proof (parse_sound _ _ _ Hp) as Hk. apply add_keys_ok in Ha; auto. destruct Ha as [Nd ->].
        rewrite all_keys_fst in Nd by (apply kind_length with (1 := Hk)).
        assert (Pm : NoDup (map fst (rev (all_keys e k (fvs_of e vs)) ++ m))).
        { rewrite map_app, map_rev, (all_keys_fst e k) by (apply kind_length with (1 := Hk)). eapply Permutation_NoDup; [|exact Nd].
          apply Permutation_app_tail. apply Permutation_rev. }
        apply IH in H; auto. destruct H as (ks & HF & HN & ->). exists ((k, fvs_of e vs) :: ks). split; [constructor; auto|]. split.
        * cbn [rev]. rewrite flat_map_app. cbn [flat_map]. rewrite app_nil_r, <- app_assoc. eapply Permutation_NoDup; [|exact HN].
          apply Permutation_app_head. rewrite map_app, map_rev, (all_keys_fst e k) by (apply kind_length with (1 := Hk)).
          apply Permutation_app_tail. apply Permutation_sym, Permutation_rev.
        * cbn [combine rev]. rewrite flat_map_app. cbn [flat_map fst snd]. rewrite app_nil_r, <- app_assoc. reflexivity.
      + intros (ks & HF & HN & ->). inversion HF as [|? [k fvs] ? ks' Hk HF']. subst. cbn [fst snd] in Hk.
        destruct (parse_complete _ _ _ Hk) as (vs & Hp & Hv). exists (k, vs). split; [exact Hp|]. cbn [fst snd]. rewrite entry_keys_eq, Hv. apply obind_ok.
        exists (rev (all_keys e k fvs) ++ m). cbn [rev] in HN. rewrite flat_map_app in HN. cbn [flat_map] in HN. rewrite app_nil_r, <- app_assoc in HN.
        assert (PP : Permutation (keyset e ++ map fst m) (map fst (rev (all_keys e k fvs) ++ m))).
        { rewrite map_app, map_rev, (all_keys_fst e k) by (apply kind_length with (1 := Hk)). apply Permutation_app_tail. apply Permutation_rev. }
        split.
        * apply add_keys_ok; auto. rewrite all_keys_fst by (apply kind_length with (1 := Hk)). split; [|reflexivity].
          clear - HN. induction (flat_map keyset (rev es)); auto. inversion HN. auto.
        * apply IH.
          { eapply Permutation_NoDup; [exact PP|]. clear - HN. induction (flat_map keyset (rev es)); auto. inversion HN. auto. }
          exists ks'. split; [auto|]. split; [eapply Permutation_NoDup; [apply Permutation_app_head; exact PP|exact HN]|].
          cbn [combine rev]. rewrite flat_map_app. cbn [flat_map fst snd]. rewrite app_nil_r, <- app_assoc. reflexivity.
  Qed.
  (** positions *)
  Lemma nodup_flat {A B} (g : A -> list B) l : NoDup (flat_map g l) <->
    (forall x y a b i j z, nth_error l x = Some a -> nth_error l y = Some b -> nth_error (g a) i = Some z -> nth_error (g b) j = Some z -> x = y /\ i = j).
  Proof.
    induction l as [|a l IH]; cbn [flat_map].
    - split; [|constructor]. intros _ x y a b i j z E. destruct x; discriminate.
    - split.
      + intros H. assert (N1 : NoDup (g a)) by (clear - H; induction (g a); [constructor|]; inversion H; constructor; auto; intros X; apply H2; apply in_or_app; auto).
        assert (N2 : NoDup (flat_map g l)) by (clear - H; induction (g a); auto; inversion H; auto).
        assert (D : forall z, In z (g a) -> In z (flat_map g l) -> False).
        { clear - H. induction (g a) as [|w r IHr]; intros z Hz Hz'; [destruct Hz|]. inversion H as [|? ? H2 H3]; subst. destruct Hz as [<-|Hz]; [apply H2; apply in_or_app; auto|apply (IHr H3 z); auto]. }
        assert (Din : forall y b j z, nth_error l y = Some b -> nth_error (g b) j = Some z -> In z (flat_map g l)).
        { intros y b j z E1 E2. apply in_flat_map. exists b. split; eapply nth_error_In; eauto. }
        intros [|x] [|y] p q i j z E1 E2 E3 E4; cbn [nth_error] in E1, E2.
        * injection E1 as <-. injection E2 as <-. split; [auto|]. apply (proj1 (NoDup_nth_error (g a)) N1); [apply nth_error_Some; congruence|congruence].
        * injection E1 as <-. exfalso. apply (D z); [eapply nth_error_In; eauto|eauto].
        * injection E2 as <-. exfalso. apply (D z); [eapply nth_error_In; eauto|eauto].
        * destruct (proj1 IH N2 x y p q i j z E1 E2 E3 E4). auto.
      + intros H. assert (N1 : NoDup (g a)).
        { apply NoDup_nth_error. intros i j Hi E. apply nth_error_Some in Hi. destruct (nth_error (g a) i) as [z|] eqn:Ei; [|congruence].
          apply (H O O a a i j z); auto. }
        assert (N2 : NoDup (flat_map g l)).
        { apply IH. intros x y p q i j z E1 E2 E3 E4. destruct (H (S x) (S y) p q i j z); auto. }
        assert (D : forall z, In z (g a) -> ~ In z (flat_map g l)).
        { intros z H1 H2. apply in_flat_map in H2. destruct H2 as (b & Hb & Hz). apply In_nth_error in Hb. destruct Hb as (y & Ey). apply In_nth_error in Hz. destruct Hz as (j & Ej).
          apply In_nth_error in H1. destruct H1 as (i & Ei). destruct (H O (S y) a b i j z); auto. discriminate. }
        clear - N1 N2 D. induction (g a) as [|w r IHr]; [auto|]. cbn [app]. inversion N1. subst. constructor.
        * intros X. apply in_app_or in X. destruct X; [tauto|]. apply (D w); [left|]; auto.
        * apply IHr; auto. intros z Hz. apply D. right. auto.
  Qed.
  Lemma in_keyset e v d : In (v, d) (keyset e) <-> exists i j, entry_key gen_vec gen_seqv e i j v d.
  Proof.
    unfold keyset, entry_key. change (variables gen_vec e) with (vars_of e). change (domains gen_seqv e) with (doms_of e). rewrite in_flat_map. split.
    - intros (v' & Hv & H). apply in_map_iff in H. destruct H as (j & E & Hj). injection E as -> ->. apply In_nth_error in Hv, Hj. destruct Hv as (i & Hi), Hj as (j & Hj). eauto.
    - intros (i & j & Hi & Hj). exists v. split; [eapply nth_error_In; eauto|]. apply in_map_iff. exists d. split; [auto|eapply nth_error_In; eauto].
  Qed.
  Lemma keyset_nodup e : NoDup (keyset e) <-> (forall i j i' j' v d, entry_key gen_vec gen_seqv e i j v d -> entry_key gen_vec gen_seqv e i' j' v d -> i = i' /\ j = j').
  Proof.
    unfold keyset, entry_key. change (variables gen_vec e) with (vars_of e). change (domains gen_seqv e) with (doms_of e). rewrite nodup_flat. split.
    - intros H i j i' j' v d [H1 H2] [H3 H4]. apply (H i i' v v j j' (v, d)); auto; rewrite nth_error_map; [rewrite H2|rewrite H4]; auto.
    - intros H x y a b i j [v d] E1 E2 E3 E4. rewrite nth_error_map in E3, E4. destruct (nth_error (doms_of e) i) eqn:F1; [|discriminate]. destruct (nth_error (doms_of e) j) eqn:F2; [|discriminate].
      cbn in E3, E4. injection E3 as -> ->. injection E4 as -> ->. apply (H x i y j v d); auto.
  Qed.
  Lemma unique_nodup es : NoDup (flat_map keyset es) <->
    (forall x y e e' i j i' j' v d, nth_error es x = Some e -> nth_error es y = Some e' -> entry_key gen_vec gen_seqv e i j v d -> entry_key gen_vec gen_seqv e' i' j' v d ->
       x = y /\ i = i' /\ j = j').
  Proof.
    split.
    - intros H x y e e' i j i' j' v d E1 E2 K1 K2. pose proof (proj1 (nodup_flat _ _) H) as P.
      assert (I1 : In (v, d) (keyset e)) by (apply in_keyset; eauto). assert (I2 : In (v, d) (keyset e')) by (apply in_keyset; eauto).
      apply In_nth_error in I1, I2. destruct I1 as (p & I1), I2 as (q & I2). destruct (P x y e e' p q (v, d) E1 E2 I1 I2) as [-> _].
      rewrite E1 in E2. injection E2 as <-. split; [auto|].
      assert (N : NoDup (keyset e)).
      { clear - H E1. revert y E1. induction es as [|a es IH]; intros [|y] E; cbn in E; try discriminate; cbn [flat_map] in H.
        - injection E as <-. clear - H. induction (keyset a); [constructor|]. inversion H. constructor; auto. intros X. apply H2. apply in_or_app; auto.
        - apply (IH ltac:(clear - H; induction (keyset a); auto; inversion H; auto) y); auto. }
      apply (proj1 (keyset_nodup e) N i j i' j' v d); auto.
    - intros H. apply nodup_flat. intros x y e e' i j [v d] E1 E2 E3 E4.
      destruct (proj1 (in_keyset e v d) (nth_error_In _ _ E3)) as (a & b & K1). destruct (proj1 (in_keyset e' v d) (nth_error_In _ _ E4)) as (a' & b' & K2).
      destruct (H x y e e' a b a' b' v d E1 E2 K1 K2) as (-> & _ & _). split; [auto|]. rewrite E1 in E2. injection E2 as <-.
      assert (N : NoDup (keyset e)). { apply keyset_nodup. intros i1 j1 i2 j2 v' d' K K'. destruct (H y y e e i1 j1 i2 j2 v' d' E1 E1 K K'). auto. }
      apply (proj1 (NoDup_nth_error _) N); [apply nth_error_Some; congruence|congruence].
  Qed.
End FunctionsProof.
