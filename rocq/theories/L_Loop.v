From Verif Require Import M_Loop S_Loop.
From Coq Require Import Lia Lra List.
Lemma forr_S {A} n body (st : A) : forr (S n) body st = body n (forr n body st).
Proof. unfold forr. rewrite seq_S, fold_left_app. reflexivity. Qed.
Lemma forr_0 {A} body (st : A) : forr 0 body st = st.
Proof. reflexivity. Qed.
Lemma forr_inv {A} (P : nat -> A -> Prop) n body st : P O st -> (forall i s, (i < n)%nat -> P i s -> P (S i) (body i s)) -> P n (forr n body st).
Proof.
  intros H0 HS. induction n as [|n IH]; [exact H0|]. rewrite forr_S. apply HS; [lia|]. apply IH. intros i s Hi. apply HS. lia.
Qed.
Lemma forr_ext {A} n body body' (st : A) : (forall i s, (i < n)%nat -> body i s = body' i s) -> forr n body st = forr n body' st.
Proof. intros H. induction n as [|n IH]; [reflexivity|]. rewrite !forr_S, IH by (intros; apply H; lia). apply H. lia. Qed.
Lemma forr_sum n (f : nat -> R) a : forr n (fun i s => s + f i) a = a + sumn n f.
Proof. induction n as [|n IH]; simpl; [rewrite forr_0; lra|]. rewrite forr_S, IH. lra. Qed.
Lemma sumn_ext n f g : (forall i, (i < n)%nat -> f i = g i) -> sumn n f = sumn n g.
Proof. intros H. induction n as [|n IH]; simpl; auto. rewrite IH by (intros; apply H; lia). rewrite H by lia. reflexivity. Qed.
Lemma sumn_scal n f c : sumn n (fun i => c * f i) = c * sumn n f.
Proof. induction n as [|n IH]; simpl; [ring|]. rewrite IH. ring. Qed.
Lemma sumn_scal_r n f c : sumn n (fun i => f i * c) = sumn n f * c.
Proof. induction n as [|n IH]; simpl; [ring|]. rewrite IH. ring. Qed.
Lemma sumn_plus n f g : sumn n (fun i => f i + g i) = sumn n f + sumn n g.
Proof. induction n as [|n IH]; simpl; [ring|]. rewrite IH. ring. Qed.
Lemma sumn_zero n f : (forall i, (i < n)%nat -> f i = 0) -> sumn n f = 0.
Proof. intros H. induction n as [|n IH]; simpl; auto. rewrite IH, H by (intros; try apply H; lia). ring. Qed.
Lemma sumn_single n f k : (k < n)%nat -> (forall i, (i < n)%nat -> i <> k -> f i = 0) -> sumn n f = f k.
Proof.
  induction n as [|n IH]; intros Hk H; [lia|]. simpl. destruct (Nat.eq_dec k n) as [->|Hne].
  - rewrite sumn_zero by (intros; apply H; lia). ring.
  - rewrite IH by (try lia; intros; apply H; lia). rewrite (H n) by lia. ring.
Qed.
Lemma sumn_swap n m f : sumn n (fun i => sumn m (fun j => f i j)) = sumn m (fun j => sumn n (fun i => f i j)).
Proof.
  induction n as [|n IH]; simpl.
  - symmetry. now apply sumn_zero.
  - rewrite IH, <- sumn_plus. reflexivity.
Qed.
Lemma sumn_nonneg n f : (forall i, (i < n)%nat -> 0 <= f i) -> 0 <= sumn n f.
Proof. intros H. induction n as [|n IH]; simpl; [lra|]. pose proof (H n ltac:(lia)). pose proof (IH ltac:(intros; apply H; lia)). lra. Qed.
Lemma sumn_add n m f : sumn (n + m) f = sumn n f + sumn m (fun i => f (n + i)%nat).
Proof.
  induction m as [|m IH]; simpl; [rewrite Nat.add_0_r; lra|]. rewrite Nat.add_succ_r. simpl. rewrite IH. lra.
Qed.
Lemma upd_same b i v : upd b i v i = v.
Proof. unfold upd. now rewrite Nat.eqb_refl. Qed.
Lemma upd_other b i v j : j <> i -> upd b i v j = b j.
Proof. intros H. unfold upd. destruct (Nat.eqb_spec j i); [contradiction|reflexivity]. Qed.
(** a loop writing f i at g i, g injective below n *)
Lemma forr_write n (g : nat -> nat) (f : nat -> R) b : (forall i j, (i < n)%nat -> (j < n)%nat -> g i = g j -> i = j) ->
  let b' := forr n (fun i b => upd b (g i) (f i)) b in
  (forall i, (i < n)%nat -> b' (g i) = f i) /\ (forall j, (forall i, (i < n)%nat -> j <> g i) -> b' j = b j).
Proof.
  intros Hinj. induction n as [|n IH]; cbv zeta in *; [rewrite forr_0; split; [lia|auto]|]. rewrite forr_S.
  destruct IH as [A B]; [intros; apply Hinj; auto; lia|]. split.
  - intros i Hi. destruct (Nat.eq_dec i n) as [->|Hne]; [apply upd_same|]. rewrite upd_other; [apply A; lia|]. intros E. apply Hne. apply Hinj; auto; lia.
  - intros j Hj. rewrite upd_other by (apply Hj; lia). apply B. intros i Hi. apply Hj. lia.
Qed.
(** a loop adding into cells: b[g i] += f i, g injective *)
Lemma forr_addto n (g : nat -> nat) (f : nat -> R) b : (forall i j, (i < n)%nat -> (j < n)%nat -> g i = g j -> i = j) ->
  let b' := forr n (fun i b => upd b (g i) (b (g i) + f i)) b in
  (forall i, (i < n)%nat -> b' (g i) = b (g i) + f i) /\ (forall j, (forall i, (i < n)%nat -> j <> g i) -> b' j = b j).
Proof.
  intros Hinj. induction n as [|n IH]; cbv zeta in *; [rewrite forr_0; split; [lia|auto]|]. rewrite forr_S.
  destruct IH as [A B]; [intros; apply Hinj; auto; lia|]. set (b1 := forr n _ b) in *. split.
  - intros i Hi. destruct (Nat.eq_dec i n) as [->|Hne].
    + rewrite upd_same, B; auto. intros i' Hi' E. apply Hinj in E; lia.
    + rewrite upd_other; [apply A; lia|]. intros E. apply Hne. apply Hinj; auto; lia.
  - intros j Hj. rewrite upd_other by (apply Hj; lia). apply B. intros i Hi. apply Hj. lia.
Qed.
(** a loop multiplying cells *)
Lemma forr_mulby n (g : nat -> nat) (f : nat -> R) b : (forall i j, (i < n)%nat -> (j < n)%nat -> g i = g j -> i = j) ->
  let b' := forr n (fun i b => upd b (g i) (b (g i) * f i)) b in
  (forall i, (i < n)%nat -> b' (g i) = b (g i) * f i) /\ (forall j, (forall i, (i < n)%nat -> j <> g i) -> b' j = b j).
Proof.
  intros Hinj. induction n as [|n IH]; cbv zeta in *; [rewrite forr_0; split; [lia|auto]|]. rewrite forr_S.
  destruct IH as [A B]; [intros; apply Hinj; auto; lia|]. set (b1 := forr n _ b) in *. split.
  - intros i Hi. destruct (Nat.eq_dec i n) as [->|Hne].
    + rewrite upd_same, B; auto. intros i' Hi' E. apply Hinj in E; lia.
    + rewrite upd_other; [apply A; lia|]. intros E. apply Hne. apply Hinj; auto; lia.
  - intros j Hj. rewrite upd_other by (apply Hj; lia). apply B. intros i Hi. apply Hj. lia.
Qed.
