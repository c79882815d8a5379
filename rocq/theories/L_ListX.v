(** Generic list lemmas. *)
From Coq Require Import Sorting.Permutation Lia List.
Import ListNotations.
Lemma NoDup_app_intro {A} (a b : list A) : NoDup a -> NoDup b -> (forall x, In x a -> In x b -> False) -> NoDup (a ++ b).
Proof.
  induction a as [|x a IH]; intros Ha Hb Hd; simpl; auto. inversion Ha; subst. constructor.
  - rewrite in_app_iff. intros [H|H]; auto. apply (Hd x); simpl; auto.
  - apply IH; auto. intros y Hy1 Hy2. apply (Hd y); simpl; auto.
Qed.
Lemma NoDup_app_inv {A} (a b : list A) : NoDup (a ++ b) -> NoDup a /\ NoDup b /\ (forall x, In x a -> In x b -> False).
Proof.
  induction a as [|x a IH]; intros H; simpl in *.
  - repeat split; auto; constructor.
  - inversion H; subst. apply IH in H3 as (H3 & H4 & H5). rewrite in_app_iff in H2. repeat split; auto.
    + constructor; auto.
    + intros y [<-|Hy] Hy2; [tauto|eauto].
Qed.
Lemma NoDup_flat_map {A B} (f : A -> list B) l : NoDup l -> (forall x, In x l -> NoDup (f x)) ->
  (forall x y z, In x l -> In y l -> In z (f x) -> In z (f y) -> x = y) -> NoDup (flat_map f l).
Proof.
  induction l as [|a l IH]; intros Hn Hf Hd; simpl; [constructor|].
  inversion Hn; subst. apply NoDup_app_intro.
  - apply Hf; simpl; auto.
  - apply IH; auto; intros; [apply Hf|eapply Hd]; simpl; eauto.
  - intros z Hz1 Hz2. apply in_flat_map in Hz2 as (y & Hy & Hz2).
    assert (a = y) by (apply (Hd a y z); simpl; auto). now subst.
Qed.
Lemma NoDup_map_inj_in {A B} (f : A -> B) l : NoDup l -> (forall x y, In x l -> In y l -> f x = f y -> x = y) -> NoDup (map f l).
Proof.
  induction l as [|a l IH]; intros Hn Hf; simpl; constructor; inversion Hn; subst.
  - rewrite in_map_iff. intros (y & E & Hy). assert (y = a) by (apply Hf; simpl; auto). now subst.
  - apply IH; auto. intros; apply Hf; simpl; auto.
Qed.
Lemma Forall2_app_r {A B} (P : A -> B -> Prop) a b c d : Forall2 P a c -> Forall2 P b d -> Forall2 P (a ++ b) (c ++ d).
Proof. intros H1 H2. induction H1; simpl; auto. Qed.
