(** Lemmas: construction of the barycentric evaluation. *)
From Verif Require Import M_BaryField S_BaryField L_RealBase L_Coord L_Loop L_Bary L_Bary2 L_Bary3.
From Flocq Require Import Core.Raux.
From Coq Require Import Lra Lia List ZArith.
Import ListNotations.
Open Scope R_scope.

Lemma build_map_spec l : forall ex m m', build_map ex l m = FOk m' -> m' = rev (combine (map ex_gid l) (seq ex (length l))) ++ m /\
  (forall i e, nth_error l i = Some e -> ex_elmt e = Z.of_nat (ex + i)).
Proof.
  induction l as [|e l IH]; intros ex m m'; cbn [build_map]; [intros [= <-]; split; [reflexivity|intros [|i] e; discriminate]|].
  destruct (Z.eqb_spec (Z.of_nat ex) (ex_elmt e)) as [E|]; [|discriminate]. intros H. destruct (IH _ _ _ H) as [-> Hi]. split.
  - cbn [map length seq combine rev]. rewrite <- app_assoc. reflexivity.
  - intros [|i] e' He; cbn in He; [injection He as <-; rewrite <- E; f_equal; lia|]. rewrite (Hi i e' He). f_equal. lia.
Qed.
Lemma build_map_ok l : forall ex m, (forall i e, nth_error l i = Some e -> ex_elmt e = Z.of_nat (ex + i)) -> exists m', build_map ex l m = FOk m'.
Proof.
  induction l as [|e l IH]; intros ex m H; cbn [build_map]; [eauto|]. rewrite (H 0%nat e eq_refl), Nat.add_0_r, Z.eqb_refl. apply IH.
  intros i e' He. rewrite (H (S i) e' He). f_equal. lia.
Qed.
Lemma find_unique {A} (f : A -> bool) l x : In x l -> f x = true -> (forall y, In y l -> f y = true -> y = x) -> find f l = Some x.
Proof.
  intros Hin Hx Hu. destruct (find f l) as [y|] eqn:E.
  - apply find_some in E as [H1 H2]. f_equal. auto.
  - exfalso. rewrite (find_none _ _ E x Hin) in Hx. discriminate.
Qed.
Lemma in_combine_seq {A} (l : list A) : forall a x i, In (x, i) (combine l (seq a (length l))) <-> exists k, i = (a + k)%nat /\ nth_error l k = Some x.
Proof.
  induction l as [|y l IH]; intros a x i; cbn [length seq combine]; [split; [intros []|intros ([|k] & _ & H); discriminate]|]. cbn [In]. rewrite IH. split.
  - intros [[= <- <-]|(k & -> & Hk)]; [exists 0%nat; split; [lia|reflexivity]|]. exists (S k). split; [lia|exact Hk].
  - intros ([|k] & -> & Hk); cbn in Hk; [injection Hk as <-; left; f_equal; lia|]. right. exists k. split; [lia|exact Hk].
Qed.
Lemma exp_of_spec exps m g e : build_map 0 exps [] = FOk m -> NoDup (map ex_gid exps) -> element_of exps g e ->
  nth_error exps (exp_of m g) = Some e.
Proof.
  intros Hm Hn [Hin Hg]. destruct (build_map_spec _ _ _ _ Hm) as [-> _]. rewrite app_nil_r. apply In_nth_error in Hin as [k Hk]. unfold exp_of.
  rewrite (find_unique _ _ (g, k)).
  - exact Hk.
  - apply -> in_rev. rewrite <- (map_length ex_gid). apply in_combine_seq. exists k. split; [lia|]. rewrite nth_error_map, Hk. cbn. now rewrite Hg.
  - cbn. apply Z.eqb_refl.
  - intros [g' k'] H1 H2. cbn in H2. apply Z.eqb_eq in H2. subst g'. apply in_rev in H1. rewrite <- (map_length ex_gid) in H1. apply in_combine_seq in H1 as (j & -> & Hj). cbn [Nat.add]. f_equal.
    apply (proj1 (NoDup_nth_error (map ex_gid exps)) Hn); [apply nth_error_Some; congruence|]. rewrite Hj, nth_error_map, Hk. cbn. congruence.
Qed.

Lemma key_eqb_spec a b : key_eqb a b = true <-> a = b.
Proof.
  unfold key_eqb. destruct a as [s l], b as [s' l']. cbn [fst snd]. destruct (list_eq_dec Nat.eq_dec l l') as [->|Hn]; rewrite ?Bool.andb_true_r, ?Bool.andb_false_r, ?Z.eqb_eq; [|split; [discriminate|congruence]].
  split; [intros ->; reflexivity|congruence].
Qed.
Lemma rel_err_refl a : rel_err a a < / 10 ^ 10.
Proof.
  assert (0 < / 10 ^ 10) by (apply Rinv_0_lt_compat, pow_lt; lra). unfold rel_err. rewrite Rminus_diag_eq, Rabs_R0 by reflexivity.
  destruct (Rlt_bool 0 (Rabs a)); unfold Rdiv; rewrite ?Rmult_0_l; unfold fmin; rewrite Rlt_bool_false by lra; exact H.
Qed.
Lemma close_refl l : close_all l l = true.
Proof. unfold close_all. induction l as [|a l IH]; [reflexivity|]. cbn [combine forallb fst snd]. rewrite IH, Rlt_bool_true by apply rel_err_refl. reflexivity. Qed.
Lemma fold_max_ge (f : nat -> nat) l : forall a, (a <= fold_left (fun a d => Nat.max a (f d)) l a)%nat /\ forall d, In d l -> (f d <= fold_left (fun a d => Nat.max a (f d)) l a)%nat.
Proof.
  induction l as [|x l IH]; intros a; cbn [fold_left]; [split; [lia|intros d []]|]. destruct (IH (Nat.max a (f x))) as [I1 I2]. split; [lia|].
  intros d [<-|Hd]; [lia|auto].
Qed.
Lemma key_dims ndim e e' : key_of ndim e = key_of ndim e' <-> ex_shape e = ex_shape e' /\ forall d, (d < ndim)%nat -> npts e d = npts e' d.
Proof.
  unfold key_of. split.
  - intros [= H1 H2]. split; [exact H1|]. intros d Hd. assert (E : nth_error (map (fun d => length (dir (ex_z e) d)) (seq 0 ndim)) d = nth_error (map (fun d => length (dir (ex_z e') d)) (seq 0 ndim)) d) by (now rewrite H2).
    assert (Es : nth_error (seq 0 ndim) d = Some d) by (rewrite (nth_error_nth' _ 0%nat) by (rewrite seq_length; lia); rewrite seq_nth by lia; f_equal; lia).
    rewrite !nth_error_map, Es in E. cbn [option_map] in E. injection E as E. exact E.
  - intros [H1 H2]. f_equal; [exact H1|]. apply map_ext_in. intros d Hd. apply in_seq in Hd. apply H2. lia.
Qed.

(** What the constructor has established after the cells [gids]. *)
Definition cell_of (ndim : nat) (e e0 : expn) (mx : nat) (ci : cinfo) : Prop :=
  ci_shape ci = ex_shape e /\ ci_z ci = ex_z e0 /\ ci_bw ci = ex_bw e0 /\ ci_off ci = ex_off e /\ key_of ndim e0 = key_of ndim e /\
  close_all (coeffs ndim (ex_z e) (ex_bw e)) (coeffs ndim (ex_z e0) (ex_bw e0)) = true /\
  (forall d, (d < ndim)%nat -> length (dir (ex_bw e) d) = length (dir (ex_z e) d) /\ (length (dir (ex_z e0) d) <= mx)%nat /\ length (dir (ex_bw e0) d) = length (dir (ex_z e0) d)).
Definition setup_inv (ndim : nat) (exps : list expn) (m : list (Z * nat)) (gids : list Z) (s : bstate) : Prop :=
  (forall kv, In kv (bs_map s) -> exists e0, In e0 exps /\ fst kv = key_of ndim e0 /\ ci_shape (snd kv) = ex_shape e0 /\ ci_z (snd kv) = ex_z e0 /\ ci_bw (snd kv) = ex_bw e0 /\
     forall d, (d < ndim)%nat -> (length (dir (ex_z e0) d) <= bs_max s)%nat /\ length (dir (ex_bw e0) d) = length (dir (ex_z e0) d)) /\
  Forall2 (fun g ci => exists e e0, nth_error exps (exp_of m g) = Some e /\ In e0 exps /\ cell_of ndim e e0 (bs_max s) ci) gids (bs_cells s).
Lemma Forall2_imp {A B} (P Q : A -> B -> Prop) l l' : (forall x y, P x y -> Q x y) -> Forall2 P l l' -> Forall2 Q l l'.
Proof. intros H. induction 1; constructor; auto. Qed.
Lemma Forall2_len {A B} (P : A -> B -> Prop) l l' : Forall2 P l l' -> length l = length l'.
Proof. induction 1; cbn; congruence. Qed.
Lemma cell_of_mono ndim e e0 mx mx' ci : (mx <= mx')%nat -> cell_of ndim e e0 mx ci -> cell_of ndim e e0 mx' ci.
Proof.
  intros H (A & B & C & D & F & G & K). split; [exact A|]. split; [exact B|]. split; [exact C|]. split; [exact D|]. split; [exact F|]. split; [exact G|].
  intros d Hd. destruct (K d Hd) as (K1 & K2 & K3). split; [auto|split; [lia|auto]].
Qed.
Lemma add_cell_inv ndim exps m gids g s s' : setup_inv ndim exps m gids s -> add_cell ndim exps m g s = FOk s' -> setup_inv ndim exps m (gids ++ [g]) s'.
Proof.
  intros [I1 I2]. unfold add_cell. destruct (nth_error exps (exp_of m g)) as [e|] eqn:Ee; [|discriminate].
  destruct (forallb _ (seq 0 ndim)) eqn:Eb; cbn [fassert fbind]; [|discriminate].
  assert (Hin : In e exps) by (eapply nth_error_In; eauto).
  assert (Hb : forall d, (d < ndim)%nat -> length (dir (ex_bw e) d) = length (dir (ex_z e) d)).
  { intros d Hd. rewrite forallb_forall in Eb. specialize (Eb d ltac:(apply in_seq; lia)). apply Nat.eqb_eq in Eb. auto. }
  destruct (find _ (bs_map s)) as [kv|] eqn:Ef.
  - apply find_some in Ef as [Hk1 Hk2]. apply key_eqb_spec in Hk2. destruct (Nat.eqb _ _); cbn [fassert fbind]; [|discriminate].
    destruct (close_all _ _) eqn:Ec; cbn [fassert fbind]; [|discriminate]. intros [= <-]. split; [exact I1|]. cbn [bs_cells bs_max].
    apply Forall2_app; [exact I2|]. constructor; [|constructor]. destruct (I1 kv Hk1) as (e0 & H0 & Hk & Hs & Hz & Hw & Hm). exists e, e0. split; [exact Ee|]. split; [exact H0|].
    unfold cell_of. cbn [ci_shape ci_z ci_bw ci_off]. rewrite <- Hz, <- Hw. split; [rewrite Hs; rewrite Hk in Hk2; apply key_dims in Hk2; apply Hk2|].
    split; [reflexivity|]. split; [reflexivity|]. split; [reflexivity|]. split; [congruence|]. split; [exact Ec|]. intros d Hd. split; [auto|]. rewrite Hz, Hw. auto.
  - intros [= <-]. cbn [bs_map bs_cells bs_max]. set (mx := fold_left _ _ _).
    destruct (fold_max_ge (fun d => length (dir (ex_z e) d)) (seq 0 ndim) (bs_max s)) as [M1 M2]. fold mx in M1. assert (M3 : forall d, (d < ndim)%nat -> (length (dir (ex_z e) d) <= mx)%nat) by (intros d Hd; apply M2, in_seq; lia).
    split.
    + intros kv Hkv. apply in_app_or in Hkv as [Hkv|[<-|[]]].
      * destruct (I1 kv Hkv) as (e0 & H0 & Hk & Hs & Hz & Hw & Hm). exists e0. repeat (split; [assumption|]). intros d Hd. destruct (Hm d Hd). cbn. split; [lia|assumption].
      * exists e. cbn. repeat (split; [first [assumption|reflexivity]|]). intros d Hd; split; auto.
    + apply Forall2_app.
      * cbn [bs_max bs_map bs_cells]. eapply Forall2_imp; [|exact I2]. intros g' ci (e1 & e0 & A & B & C). exists e1, e0. split; [exact A|]. split; [exact B|]. eapply cell_of_mono; eauto.
      * constructor; [|constructor]. exists e, e. split; [exact Ee|]. split; [exact Hin|]. unfold cell_of. cbn. repeat (split; [reflexivity|]). split; [apply close_refl|]. intros d Hd. auto.
Qed.

Lemma fold_fres_fail {A B} (f : A -> B -> fres B) l x : (forall b, x <> FOk b) -> fold_left (fun s g => fbind s (f g)) l x = x.
Proof. induction l as [|a l IH]; intros Hx; [reflexivity|]. cbn [fold_left]. replace (fbind x (f a)) with x by (destruct x; [exfalso; eapply Hx; eauto| | |]; reflexivity). auto. Qed.
Lemma setup_fold ndim exps m : forall gids done s s', setup_inv ndim exps m done s ->
  fold_left (fun s g => let! s := s in add_cell ndim exps m g s) gids (FOk s) = FOk s' -> setup_inv ndim exps m (done ++ gids) s'.
Proof.
  induction gids as [|g gids IH]; intros done s s' I; cbn [fold_left]; [intros [= <-]; rewrite app_nil_r; exact I|]. cbn [fbind].
  destruct (add_cell ndim exps m g s) as [s1| | |] eqn:E1; try (intros H; rewrite (fold_fres_fail (fun g s => add_cell ndim exps m g s)) in H by discriminate; discriminate).
  intros H. replace (done ++ g :: gids) with ((done ++ [g]) ++ gids) by (rewrite <- app_assoc; reflexivity). eapply IH; [|exact H]. eapply add_cell_inv; eauto.
Qed.
Lemma setup_spec ndim exps gids s : bary_setup ndim exps gids = FOk s -> exists m, build_map 0 exps [] = FOk m /\ setup_inv ndim exps m gids s.
Proof.
  unfold bary_setup. destruct (build_map 0 exps []) as [m| | |] eqn:Em; try discriminate. cbn [fbind]. intros H. exists m. split; [reflexivity|].
  apply (setup_fold ndim exps m gids [] {| bs_max := 0; bs_map := []; bs_cells := [] |} s); [|exact H]. split; [intros kv []|constructor].
Qed.
(** In a field whose quadrature depends on shape and number of points only, every cell has its own element's data. *)
Lemma setup_cells ndim exps gids s : field_ok ndim exps -> (forall g, In g gids -> exists e, element_of exps g e) -> bary_setup ndim exps gids = FOk s ->
  length (bs_cells s) = length gids /\
  forall cell g e, nth_error gids cell = Some g -> element_of exps g e -> exists ci, nth_error (bs_cells s) cell = Some ci /\
    ci_shape ci = ex_shape e /\ ci_z ci = ex_z e /\ ci_bw ci = ex_bw e /\ ci_off ci = ex_off e /\ forall d, (d < ndim)%nat -> (npts e d <= bs_max s)%nat.
Proof.
  intros (F1 & F2 & F3 & F4) Hg H. destruct (setup_spec _ _ _ _ H) as (m & Hm & _ & I2). split; [symmetry; eapply Forall2_len; eauto|].
  intros cell g e Hc He. assert (Hci : exists ci, nth_error (bs_cells s) cell = Some ci /\ exists e e0, nth_error exps (exp_of m g) = Some e /\ In e0 exps /\ cell_of ndim e e0 (bs_max s) ci).
  { clear - I2 Hc. revert cell Hc. induction I2 as [|g' ci gs cs P I2 IH]; intros [|cell] Hc; cbn in Hc; try discriminate; [injection Hc as <-; exists ci; split; [reflexivity|exact P]|]. apply IH. exact Hc. }
  destruct Hci as (ci & Ec & e' & e0 & H1 & H2 & (A & B & C & D & K & _ & M)). rewrite (exp_of_spec exps m g e Hm F2 He) in H1. injection H1 as <-.
  apply key_dims in K as [K1 K2]. destruct (F4 e0 e H2 (proj1 He) K1 K2) as [Z1 Z2]. exists ci. split; [exact Ec|]. split; [exact A|]. split; [congruence|]. split; [congruence|]. split; [exact D|].
  intros d Hd. rewrite <- K2 by auto. apply M. exact Hd.
Qed.
(** Such a field is accepted. *)
Lemma setup_ok ndim exps gids : field_ok ndim exps -> (forall g, In g gids -> exists e, element_of exps g e) -> exists s, bary_setup ndim exps gids = FOk s.
Proof.
  intros (F1 & F2 & F3 & F4) Hg. unfold bary_setup. destruct (build_map_ok exps 0 [] F1) as [m Hm]. rewrite Hm. cbn [fbind].
  assert (I : setup_inv ndim exps m [] {| bs_max := 0; bs_map := []; bs_cells := [] |}) by (split; [intros kv []|constructor]).
  revert I. generalize ({| bs_max := 0; bs_map := []; bs_cells := [] |}) as s. generalize (@nil Z) as done.
  induction gids as [|g gids IH]; intros done s I; cbn [fold_left]; [eauto|]. cbn [fbind]. destruct (Hg g (or_introl eq_refl)) as [e He].
  assert (Hs : exists s1, add_cell ndim exps m g s = FOk s1).
  { unfold add_cell. rewrite (exp_of_spec exps m g e Hm F2 He). destruct He as [He _].
    assert (Eb : forallb (fun d => Nat.eqb (length (dir (ex_z e) d)) (length (dir (ex_bw e) d))) (seq 0 ndim) = true).
    { apply forallb_forall. intros d Hd. apply in_seq in Hd. apply Nat.eqb_eq. destruct (F3 e He d ltac:(lia)) as (_ & E & _). symmetry. exact E. }
    rewrite Eb. cbn [fassert fbind]. destruct (find _ (bs_map s)) as [kv|] eqn:Ef; [|eauto]. apply find_some in Ef as [Hk1 Hk2]. apply key_eqb_spec in Hk2.
    destruct I as [I1 _]. destruct (I1 kv Hk1) as (e0 & H0 & Hk & _ & Hz & Hw & _). rewrite Hk in Hk2. apply key_dims in Hk2 as [K1 K2].
    destruct (F4 e0 e H0 He K1 K2) as [Z1 Z2]. rewrite Hz, Hw, Z1, Z2, Nat.eqb_refl. cbn [fassert fbind]. rewrite close_refl. cbn [fassert fbind]. eauto. }
  destruct Hs as [s1 Hs]. rewrite Hs. apply (IH ltac:(intros; apply Hg; now right) (done ++ [g])). eapply add_cell_inv; eauto.
Qed.
