(** Lemmas: the loops and kernels of the barycentric evaluation. *)
From Verif Require Import M_BaryField S_BaryField L_RealBase L_Coord L_Loop L_Bary L_Bary2 L_Bary3 L_BaryField.
From Flocq Require Import Core.Raux.
From Coq Require Import Lra Lia List ZArith Bool.
Import ListNotations.
Open Scope R_scope.

(** The values of the functions in the transposed array. *)
Lemma nth_concat np : forall (vals : list (list R)) f j, (forall v, In v vals -> length v = np) -> (f < length vals)%nat -> (j < np)%nat ->
  nth (f * np + j) (concat vals) 0 = nth j (nth f vals []) 0.
Proof.
  induction vals as [|v vals IH]; intros f j Hl Hf Hj; cbn [length] in Hf; [lia|]. cbn [concat]. pose proof (Hl v (or_introl eq_refl)) as Hv. destruct f as [|f].
  - cbn [Nat.mul Nat.add nth]. rewrite app_nth1 by lia. reflexivity.
  - rewrite app_nth2 by lia. cbn [nth]. replace (S f * np + j - length v)%nat with (f * np + j)%nat by lia. apply IH; [intros w Hw; apply Hl; now right|lia|exact Hj].
Qed.
Lemma interlaced_spec np vals f j : (forall v, In v vals -> length v = np) -> (f < length vals)%nat -> (j < np)%nat ->
  interlaced vals (j * length vals + f)%nat = nth j (nth f vals []) 0.
Proof.
  intros Hl Hf Hj. unfold interlaced. cbv zeta. assert (Hnp : length (nth 0 vals []) = np) by (apply Hl, nth_In; lia). rewrite Hnp.
  destruct (Nat.ltb_spec 1 (length vals)) as [H1|H1]; unfold flat.
  - destruct (lane_div j (length vals) f Hf) as [-> ->]. apply nth_concat; auto.
  - assert (f = 0%nat) by lia. subst f. assert (length vals = 1)%nat by lia. rewrite <- (nth_concat np vals 0 j Hl) by lia. f_equal. lia.
Qed.

(** Loops over particles: every item's targets are good afterwards, all others keep their value. *)
Definition cover {A} (cov : A -> nat -> nat -> nat -> nat -> bool) (l : list A) (s c k y : nat) : bool := existsb (fun x => cov x s c k y) l.
Lemma floop_spec {A} (f : A -> pdats -> fres pdats) cov (G : nat -> nat -> nat -> nat -> R -> Prop) : forall l,
  (forall x, In x l -> forall d, exists d', f x d = FOk d' /\ (forall s c k y, cov x s c k y = true -> G s c k y (d' s c k y)) /\
     (forall s c k y, cov x s c k y = false -> d' s c k y = d s c k y)) ->
  forall d, exists d', floop f l d = FOk d' /\ (forall s c k y, cover cov l s c k y = true -> G s c k y (d' s c k y)) /\
     (forall s c k y, cover cov l s c k y = false -> d' s c k y = d s c k y).
Proof.
  induction l as [|x l IH]; intros H d.
  - exists d. split; [reflexivity|]. split; [discriminate|reflexivity].
  - destruct (H x (or_introl eq_refl) d) as (d1 & E1 & G1 & U1). destruct (IH ltac:(intros; apply H; now right) d1) as (d' & E' & G' & U').
    exists d'. split; [unfold floop; cbn [fold_left fbind]; rewrite E1; exact E'|]. split; unfold cover; cbn [existsb]; intros s c k y Hc.
    + destruct (existsb (fun x => cov x s c k y) l) eqn:El; [apply G'; exact El|]. rewrite orb_false_r in Hc. rewrite U' by exact El. auto.
    + apply orb_false_iff in Hc as [C1 C2]. rewrite U' by exact C2. auto.
Qed.
Lemma cover_true {A} (cov : A -> nat -> nat -> nat -> nat -> bool) l s c k y : cover cov l s c k y = true <-> exists x, In x l /\ cov x s c k y = true.
Proof. apply existsb_exists. Qed.
Lemma bool_false_iff b (P : Prop) : (b = true <-> P) -> (b = false <-> ~ P).
Proof. intros H. destruct b; split; intros; try discriminate; try reflexivity; [exfalso; apply H0, H; reflexivity|intros HP; apply H in HP; discriminate]. Qed.

(** One output of one function for the particles [start .. start + bound). *)
Definition covw (cell start bound : nat) (x : nat * (nat * Z)) (s c k y : nat) : bool :=
  Nat.eqb s (fst (snd x)) && Nat.eqb c cell && Z.eqb (Z.of_nat k) (snd (snd x)) && (Nat.leb start y && Nat.ltb y (start + bound)).
Definition wr (c : bcall) (cell layer : nat) (sym : nat) (comp : Z) (v : R) (d : pdats) : fres pdats :=
  if (Z.leb 0 comp && Z.ltb comp (Z.of_nat (bc_ncomp c sym)))%bool then FOk (pwrite d sym cell (Z.to_nat comp) layer v) else FUB.
Lemma pwrite_eq d s c k y v : pwrite d s c k y v s c k y = v.
Proof. unfold pwrite. rewrite !Nat.eqb_refl. reflexivity. Qed.
Lemma pwrite_ne d s c k y v s' c' k' y' : ~ (s' = s /\ c' = c /\ k' = k /\ y' = y) -> pwrite d s c k y v s' c' k' y' = d s' c' k' y'.
Proof.
  intros H. unfold pwrite. destruct (Nat.eqb_spec s' s); [|reflexivity]. destruct (Nat.eqb_spec c' c); [|reflexivity]. destruct (Nat.eqb_spec k' k); [|reflexivity].
  destruct (Nat.eqb_spec y' y); [|reflexivity]. exfalso. apply H. auto.
Qed.
Lemma column_spec c cell start bound sym comp val : (0 <= comp < Z.of_nat (bc_ncomp c sym))%Z -> forall d, exists d',
  floop (fun b => wr c cell (start + b) sym comp (val b)) (seq 0 bound) d = FOk d' /\
  (forall s c' k y, covw cell start bound (0%nat, (sym, comp)) s c' k y = true -> d' s c' k y = val (y - start)%nat) /\
  (forall s c' k y, covw cell start bound (0%nat, (sym, comp)) s c' k y = false -> d' s c' k y = d s c' k y).
Proof.
  intros Hc d. destruct (floop_spec (fun b => wr c cell (start + b) sym comp (val b)) (fun b s c' k y => covw cell (start + b) 1 (0%nat, (sym, comp)) s c' k y) (fun s c' k y r => r = val (y - start)%nat) (seq 0 bound)) with (d := d) as (d' & E & G & U).
  - intros b Hb d0. unfold wr. destruct (Z.leb_spec 0 comp); [|lia]. destruct (Z.ltb_spec comp (Z.of_nat (bc_ncomp c sym))); [|lia]. cbn [andb]. eexists. split; [reflexivity|]. unfold covw. cbn [fst snd]. split; intros s c' k y H1.
    + rewrite !andb_true_iff, !Nat.eqb_eq, Z.eqb_eq, Nat.leb_le, Nat.ltb_lt in H1. destruct H1 as [[[-> ->] Ek] Hy]. assert (y = start + b)%nat by lia. subst y. assert (Z.to_nat comp = k) by lia. subst k. rewrite pwrite_eq. f_equal. lia.
    + apply pwrite_ne. intros (-> & -> & -> & ->). rewrite !Nat.eqb_refl, Z2Nat.id, Z.eqb_refl, Nat.leb_refl in H1 by lia. destruct (Nat.ltb_spec (start + b) (start + b + 1)); [discriminate|lia].
  - exists d'. split; [exact E|].
    assert (Hcov : forall s c' k y, cover (fun b s c' k y => covw cell (start + b) 1 (0%nat, (sym, comp)) s c' k y) (seq 0 bound) s c' k y = covw cell start bound (0%nat, (sym, comp)) s c' k y).
    { intros s c' k y. apply eq_true_iff_eq. rewrite cover_true. unfold covw. cbn [fst snd]. split.
      - intros (b & Hb & H1). apply in_seq in Hb. rewrite !andb_true_iff, Nat.leb_le, Nat.ltb_lt in *. destruct H1 as [H1 Hy]. split; [exact H1|lia].
      - rewrite !andb_true_iff, Nat.leb_le, Nat.ltb_lt. intros [H1 H2]. exists (y - start)%nat. rewrite in_seq, !andb_true_iff, Nat.leb_le, Nat.ltb_lt. split; [lia|]. split; [exact H1|lia]. }
    split; intros s c' k y H1; [apply G; now rewrite Hcov|apply U; now rewrite Hcov].
Qed.
Lemma floop_fail {A} (f : A -> pdats -> fres pdats) l (acc : fres pdats) : fold_left (fun acc x => let! d := acc in f x d) l acc = fbind acc (floop f l).
Proof. destruct acc as [d| | |]; [reflexivity| | |]; apply fold_fres_fail; discriminate. Qed.
Lemma fold_left_ext {A B} (f g : B -> A -> B) l : (forall b a, f b a = g b a) -> forall b, fold_left f l b = fold_left g l b.
Proof. intros H. induction l as [|a l IH]; intros b; cbn; [reflexivity|]. rewrite H. apply IH. Qed.
Definition syms_ok (c : bcall) : Prop := NoDup (bc_syms c) /\ (forall s k, In (s, k) (bc_syms c) -> (0 <= k < Z.of_nat (bc_ncomp c s))%Z).
Lemma writes_spec c cell start bound val : syms_ok c -> forall d, exists d',
  floop (fun x => floop (fun b => wr c cell (start + b) (fst (snd x)) (snd (snd x)) (val (fst x) b)) (seq 0 bound)) (combine (seq 0 (nfun c)) (bc_syms c)) d = FOk d' /\
  (forall fx sym comp y, nth_error (bc_syms c) fx = Some (sym, comp) -> (start <= y < start + bound)%nat -> d' sym cell (Z.to_nat comp) y = val fx (y - start)%nat) /\
  (forall s c' k y, ~ (c' = cell /\ (start <= y < start + bound)%nat /\ In (s, Z.of_nat k) (bc_syms c)) -> d' s c' k y = d s c' k y).
Proof.
  intros [Hn Hr] d. assert (Hin : forall x, In x (combine (seq 0 (nfun c)) (bc_syms c)) <-> nth_error (bc_syms c) (fst x) = Some (snd x)).
  { intros [fx sc]. cbn [fst snd]. unfold nfun. assert (Hg : forall (l : list (nat * Z)) a, In (fx, sc) (combine (seq a (length l)) l) <-> (a <= fx)%nat /\ nth_error l (fx - a) = Some sc).
    { induction l as [|x l IH]; intros a; cbn [length seq combine In]; [split; [intros []|intros [_ H]; destruct (fx - a)%nat; discriminate]|]. rewrite IH. split.
      - intros [[= <- <-]|[H1 H2]]; [split; [lia|]; rewrite Nat.sub_diag; reflexivity|]. split; [lia|]. replace (fx - a)%nat with (S (fx - S a)) by lia. exact H2.
      - intros [H1 H2]. destruct (Nat.eq_dec fx a) as [->|]; [left; rewrite Nat.sub_diag in H2; cbn in H2; congruence|]. right. split; [lia|]. replace (fx - a)%nat with (S (fx - S a)) in H2 by lia. exact H2. }
    rewrite Hg. rewrite Nat.sub_0_r. split; [intros []; auto|split; [lia|auto]]. }
  destruct (floop_spec (fun x => floop (fun b => wr c cell (start + b) (fst (snd x)) (snd (snd x)) (val (fst x) b)) (seq 0 bound)) (covw cell start bound)
    (fun s c' k y r => forall fx, nth_error (bc_syms c) fx = Some (s, Z.of_nat k) -> r = val fx (y - start)%nat) (combine (seq 0 (nfun c)) (bc_syms c))) with (d := d) as (d' & E & G & U).
  - intros [fx [sym comp]] Hx d0. apply Hin in Hx. cbn [fst snd] in *. destruct (column_spec c cell start bound sym comp (val fx) (Hr _ _ (nth_error_In _ _ Hx)) d0) as (d1 & E1 & G1 & U1).
    exists d1. split; [exact E1|]. split; [|exact U1]. intros s c' k y Hc fx' Hfx'. rewrite (G1 _ _ _ _ Hc). f_equal. unfold covw in Hc. cbn [fst snd] in Hc. rewrite !andb_true_iff, Nat.eqb_eq, Z.eqb_eq in Hc. destruct Hc as [[[-> _] Ek] _]. rewrite Ek in Hfx'.
    apply (proj1 (NoDup_nth_error (bc_syms c)) Hn); [apply nth_error_Some; congruence|congruence].
  - exists d'. split; [exact E|]. split.
    + intros fx sym comp y Hf Hy. pose proof (Hr _ _ (nth_error_In _ _ Hf)) as Hc. apply G; [|rewrite Z2Nat.id by lia; exact Hf]. apply cover_true. exists (fx, (sym, comp)). split; [apply Hin; exact Hf|].
      unfold covw. cbn [fst snd]. rewrite !Nat.eqb_refl, Z2Nat.id, Z.eqb_refl by lia. cbn [andb]. destruct (Nat.leb_spec start y); [|lia]. destruct (Nat.ltb_spec y (start + bound)); [reflexivity|lia].
    + intros s c' k y Hno. apply U. apply (bool_false_iff _ _ (cover_true _ _ _ _ _ _)). intros ([fx [sym comp]] & Hx & Hc). apply Hin in Hx. unfold covw in Hc. cbn [fst snd] in *. rewrite !andb_true_iff, !Nat.eqb_eq, Z.eqb_eq, Nat.leb_le, Nat.ltb_lt in Hc.
      destruct Hc as [[[-> ->] Ek] Hy]. apply Hno. split; [reflexivity|]. split; [exact Hy|]. rewrite Ek. eapply nth_error_In; eauto.
Qed.
Lemma write_all_spec c cell layer val : syms_ok c -> forall d, exists d', write_all c cell layer val d = FOk d' /\
  (forall fx sym comp, nth_error (bc_syms c) fx = Some (sym, comp) -> d' sym cell (Z.to_nat comp) layer = val fx) /\
  (forall s c' k y, ~ (c' = cell /\ y = layer /\ In (s, Z.of_nat k) (bc_syms c)) -> d' s c' k y = d s c' k y).
Proof.
  intros Hs d. destruct (writes_spec c cell layer 1 (fun fx _ => val fx) Hs d) as (d' & E & G & U). exists d'. split; [|split].
  - rewrite <- E. unfold write_all, floop at 1. apply fold_left_ext. intros acc [fx [sym comp]]. cbn [fst snd]. unfold floop. cbn [seq fold_left fbind]. rewrite Nat.add_0_r. reflexivity.
  - intros fx sym comp Hf. rewrite (G fx sym comp layer Hf) by lia. reflexivity.
  - intros s c' k y Hno. apply U. intros (-> & Hy & H). apply Hno. repeat split; [lia|exact H].
Qed.
