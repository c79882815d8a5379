(** C115: the value of a continuous field at a particle in double precision. Model: M_EvalD, M_BasisD. Specification: S_EvalD, S_BasisD, S_Basis. *)
From Flocq Require Import Core.
From Verif Require Import M_RealBase L_RealBase M_Loop L_Loop M_Grid M_Double S_Double L_Double L_Double2 M_BorisD L_SumD L_BaryD S_BaryD P_Double S_Jacobi L_Jacobi L_Basis1 S_Basis L_Basis3 L_Basis4 M_BasisD S_BasisD L_BasisD L_BasisD2 L_BasisD3 P_BasisD M_EvalD S_EvalD L_EvalD L_EvalD2.
From Coq Require Import Reals Lra Lia ZArith Bool Arith List.
Import ListNotations.
Open Scope R_scope.

Lemma sum_error_eq P n : 2 * INR (3 * (28 * P + 64) + 8 + 4 * n) * u = sum_error P n.
Proof.
  unfold sum_error. rewrite u_eq. rewrite !plus_INR, !mult_INR, plus_INR, mult_INR.
  replace (INR 3) with 3 by (rewrite INR_IZR_INZ; reflexivity). replace (INR 28) with 28 by (rewrite INR_IZR_INZ; reflexivity). replace (INR 64) with 64 by (rewrite INR_IZR_INZ; reflexivity).
  replace (INR 8) with 8 by (rewrite INR_IZR_INZ; reflexivity). replace (INR 4) with 4 by (rewrite INR_IZR_INZ; reflexivity). ring.
Qed.
Lemma Sum_within P dofs (I : Type) (y m : I -> R) l st : (2 <= P <= 32)%nat -> (Z.of_nat (length l) <= 32768)%Z -> Sum P dofs y m l st -> sum_within P dofs st (map y l) (map m l).
Proof.
  intros HP HL (ev & -> & A). destruct (acc_end _ _ _ _ _ _ _ A) as [D E]; [unfold few; lia|]. exists ev. split; [auto|]. split; [auto|]. rewrite map_length, <- sum_error_eq. exact E.
Qed.
(** From the arrays of local modes, any that are as close as C114 shows. *)
Section Loops.
Context (P : nat) (HP : (2 <= P <= 32)%nat) (e0 e1 e2 : R) (C0 : coordinate e0) (C1 : coordinate e1) (C2 : coordinate e2).
Context (dofs : list R) (HD : forall c, In c dofs -> nodal c) (f : nat -> bool) (ls0 ls1 ls2 : list (option R)).
Theorem C115_loop_quad : (length (modes_quad P e0 e1) <= length dofs)%nat -> space P ls0 (sized_A P e0) -> space P ls1 (sized_A P e1) ->
  sum_within P dofs (evaluate_quad_d f P dofs ls0 ls1) (modes_quad P e0 e1) (sizes_quad P).
Proof. intros. pose proof (idx2_few (fun _ => P) P ltac:(lia) ltac:(auto)). apply Sum_within; [auto|lia|]. eapply quad_D; eauto. Qed.
Theorem C115_loop_tri : (length (modes_tri P e0 e1) <= length dofs)%nat -> space P ls0 (sized_A P e0) -> space P ls1 (sized_B P e1) ->
  sum_within P dofs (evaluate_tri_d f P dofs ls0 ls1) (modes_tri P e0 e1) (sizes_tri P).
Proof. intros. pose proof (idx2_few (fun p => (P - p)%nat) P ltac:(lia) ltac:(intros; cbv beta; lia)). apply Sum_within; [auto|lia|]. eapply tri_D; eauto. Qed.
Theorem C115_loop_hex : (length (modes_hex P e0 e1 e2) <= length dofs)%nat -> space P ls0 (sized_A P e0) -> space P ls1 (sized_A P e1) -> space P ls2 (sized_A P e2) ->
  sum_within P dofs (evaluate_hex_d f P dofs ls0 ls1 ls2) (modes_hex P e0 e1 e2) (sizes_hex P).
Proof. intros. apply Sum_within; [auto|apply idx3_few; intros; cbv beta; lia|]. eapply hex_D; eauto. Qed.
Theorem C115_loop_prism : (length (modes_prism P e0 e1 e2) <= length dofs)%nat -> space P ls0 (sized_A P e0) -> space P ls1 (sized_A P e1) -> space P ls2 (sized_B P e2) ->
  sum_within P dofs (evaluate_prism_d f P dofs ls0 ls1 ls2) (modes_prism P e0 e1 e2) (sizes_prism P).
Proof. intros. apply Sum_within; [auto|apply idx3_few; intros; cbv beta; lia|]. eapply prism_D; eauto. Qed.
Theorem C115_loop_tet : (length (modes_tet P e0 e1 e2) <= length dofs)%nat -> space P ls0 (sized_A P e0) -> space P ls1 (sized_B P e1) -> space P ls2 (sized_C P e2) ->
  sum_within P dofs (evaluate_tet_d f P dofs ls0 ls1 ls2) (modes_tet P e0 e1 e2) (sizes_tet P).
Proof. intros. apply Sum_within; [auto|apply idx3_few; intros; cbv beta; lia|]. eapply tet_D; eauto. Qed.
End Loops.
(** With the modes computed by the kernels of C114: the whole evaluation at the collapsed coordinates [e0], [e1], [e2] of a particle. *)
Theorem C115_quad F0 F1 f max_n max_alpha P dofs e0 e1 : (2 <= P <= 32)%nat -> (P <= max_n + 2)%nat -> (1 <= max_alpha)%nat -> coordinate e0 -> coordinate e1 ->
  (forall c, In c dofs -> nodal c) -> (length (modes_quad P e0 e1) <= length dofs)%nat -> let T := make_table_d max_n max_alpha in
  sum_within P dofs (evaluate_quad_d f P dofs (mod_A_d F0 T P e0) (mod_A_d F1 T P e1)) (modes_quad P e0 e1) (sizes_quad P).
Proof. intros HP HT HA C0 C1 HD HL T. apply C115_loop_quad; auto; apply C114_mod_A; auto; lia. Qed.
Theorem C115_tri F0 F1 f max_n max_alpha P dofs e0 e1 : (2 <= P <= 32)%nat -> (P <= max_n + 2)%nat -> (1 <= max_alpha)%nat -> (2 * P <= max_alpha + 3)%nat -> coordinate e0 -> coordinate e1 -> e1 < 1 ->
  (forall c, In c dofs -> nodal c) -> (length (modes_tri P e0 e1) <= length dofs)%nat -> let T := make_table_d max_n max_alpha in
  sum_within P dofs (evaluate_tri_d f P dofs (mod_A_d F0 T P e0) (mod_B_d F1 T P e1)) (modes_tri P e0 e1) (sizes_tri P).
Proof. intros HP HT HA HB C0 C1 L HD HL T. apply C115_loop_tri; auto; [apply C114_mod_A|apply C114_mod_B]; auto; lia. Qed.
Theorem C115_hex F0 F1 F2 f max_n max_alpha P dofs e0 e1 e2 : (2 <= P <= 32)%nat -> (P <= max_n + 2)%nat -> (1 <= max_alpha)%nat -> coordinate e0 -> coordinate e1 -> coordinate e2 ->
  (forall c, In c dofs -> nodal c) -> (length (modes_hex P e0 e1 e2) <= length dofs)%nat -> let T := make_table_d max_n max_alpha in
  sum_within P dofs (evaluate_hex_d f P dofs (mod_A_d F0 T P e0) (mod_A_d F1 T P e1) (mod_A_d F2 T P e2)) (modes_hex P e0 e1 e2) (sizes_hex P).
Proof. intros HP HT HA C0 C1 C2 HD HL T. apply C115_loop_hex; auto; apply C114_mod_A; auto; lia. Qed.
Theorem C115_prism F0 F1 F2 f max_n max_alpha P dofs e0 e1 e2 : (2 <= P <= 32)%nat -> (P <= max_n + 2)%nat -> (1 <= max_alpha)%nat -> (2 * P <= max_alpha + 3)%nat -> coordinate e0 -> coordinate e1 -> coordinate e2 -> e2 < 1 ->
  (forall c, In c dofs -> nodal c) -> (length (modes_prism P e0 e1 e2) <= length dofs)%nat -> let T := make_table_d max_n max_alpha in
  sum_within P dofs (evaluate_prism_d f P dofs (mod_A_d F0 T P e0) (mod_A_d F1 T P e1) (mod_B_d F2 T P e2)) (modes_prism P e0 e1 e2) (sizes_prism P).
Proof. intros HP HT HA HB C0 C1 C2 L HD HL T. apply C115_loop_prism; auto; try apply C114_mod_A; try apply C114_mod_B; auto; lia. Qed.
Theorem C115_tet F0 F1 F2 f max_n max_alpha P dofs e0 e1 e2 : (2 <= P <= 32)%nat -> (P <= max_n + 2)%nat -> (1 <= max_alpha)%nat -> (2 * P <= max_alpha + 3)%nat -> coordinate e0 -> coordinate e1 -> coordinate e2 -> e1 < 1 -> e2 < 1 ->
  (forall c, In c dofs -> nodal c) -> (length (modes_tet P e0 e1 e2) <= length dofs)%nat -> let T := make_table_d max_n max_alpha in
  sum_within P dofs (evaluate_tet_d f P dofs (mod_A_d F0 T P e0) (mod_B_d F1 T P e1) (mod_C_d F2 T P e2)) (modes_tet P e0 e1 e2) (sizes_tet P).
Proof. intros HP HT HA HB C0 C1 C2 L1 L2 HD HL T. apply C115_loop_tet; auto; [apply C114_mod_A|apply C114_mod_B|apply C114_mod_C]; auto; lia. Qed.
Print Assumptions C115_quad.
Print Assumptions C115_tri.
Print Assumptions C115_hex.
Print Assumptions C115_prism.
Print Assumptions C115_tet.

(** A local mode that is not finite is never hidden by the sum (nor is a read past the end of an array). *)
Definition no_value (l : list (option R)) (i : nat) : Prop := forall v, nth_error l i <> Some (Some v).
Lemma no_entry l i : no_value l i -> entry l i = None.
Proof. unfold entry. intros H. destruct (nth_error l i) as [[v|]|] eqn:E; [exfalso; eapply H; eauto|reflexivity|reflexivity]. Qed.
Lemma forr_strict {S} n (b : nat -> option S -> option S) : (forall j, b j None = None) -> forr n b None = None.
Proof. intros H. induction n as [|n IH]; [reflexivity|]. rewrite forr_S, IH. apply H. Qed.
Lemma forr_none {S} n (b : nat -> option S -> option S) s i : (forall j, b j None = None) -> (i < n)%nat -> (forall s, b i s = None) -> forr n b s = None.
Proof.
  intros H Hi Hb. induction n as [|n IH]; [lia|]. rewrite forr_S. destruct (Nat.eq_dec i n) as [->|]; [apply Hb|]. rewrite IH by lia. apply H.
Qed.
Theorem C115_quad_not_finite f P dofs ls0 ls1 p q : (p < P)%nat -> (q < P)%nat -> no_value ls0 p \/ no_value ls1 q -> evaluate_quad_d f P dofs ls0 ls1 = None.
Proof.
  intros Hp Hq H. assert (H' : entry ls0 p = None \/ entry ls1 q = None) by (destruct H; [left|right]; apply no_entry; auto). clear H. rename H' into H. unfold evaluate_quad_d. apply (forr_none _ _ _ q); [intros; apply forr_strict; reflexivity|auto|]. intros s. apply (forr_none _ _ _ p); [reflexivity|auto|].
  intros [ev|]; [|reflexivity]. cbn [bind]. destruct (nth_error dofs (q * P + p)); [cbn [bind]|reflexivity]. destruct H as [->| ->]; [reflexivity|]. destruct (entry ls0 p); reflexivity.
Qed.
Theorem C115_hex_not_finite f P dofs ls0 ls1 ls2 p q r : (p < P)%nat -> (q < P)%nat -> (r < P)%nat -> no_value ls0 p \/ no_value ls1 q \/ no_value ls2 r ->
  evaluate_hex_d f P dofs ls0 ls1 ls2 = None.
Proof.
  intros Hp Hq Hr H. assert (H' : entry ls0 p = None \/ entry ls1 q = None \/ entry ls2 r = None) by (destruct H as [H|[H|H]]; apply no_entry in H; auto). clear H. rename H' into H. unfold evaluate_hex_d.
  apply (forr_none _ _ _ r); [|auto|].
  - intros j. cbv zeta. destruct (entry ls2 j); [cbn [bind]|reflexivity]. apply forr_strict. intros k. cbv zeta. destruct (entry ls1 k); [cbn [bind]|reflexivity]. destruct (fl _); [cbn [bind]|reflexivity]. apply forr_strict. reflexivity.
  - intros s. cbv zeta. destruct (entry ls2 r) as [x2|] eqn:E2; [cbn [bind]|reflexivity]. apply (forr_none _ _ _ q); [|auto|].
    + intros k. cbv zeta. destruct (entry ls1 k); [cbn [bind]|reflexivity]. destruct (fl _); [cbn [bind]|reflexivity]. apply forr_strict. reflexivity.
    + intros s1. cbv zeta. destruct (entry ls1 q) as [x1|] eqn:E1; [cbn [bind]|reflexivity]. destruct (fl (x1 * x2)); [cbn [bind]|reflexivity]. apply (forr_none _ _ _ p); [reflexivity|auto|].
      intros [ev|]; [|reflexivity]. cbn [bind]. destruct (nth_error dofs _); [cbn [bind]|reflexivity]. destruct H as [->|[H|H]]; [reflexivity|discriminate|discriminate].
Qed.
Theorem C115_tri_not_finite f P dofs ls0 ls1 p q : (p < P)%nat -> (q < P - p)%nat -> no_value ls1 (length (idx2 p (fun p => (P - p)%nat)) + q) -> evaluate_tri_d f P dofs ls0 ls1 = None.
Proof.
  intros Hp Hq H. apply no_entry in H. unfold evaluate_tri_d. set (n1 := fun p => (P - p)%nat) in *. assert (HE : length (pre2 n1 p q) = (length (idx2 p n1) + q)%nat) by (unfold pre2; rewrite app_length, map_length, seq_length; reflexivity). rewrite <- HE in H.
  match goal with |- bind (forr P ?b ?s) _ = None => assert (G : forr P b s = None) end; [|rewrite G; reflexivity].
  set (ok := fun n (st : option (nat * R)) => st = None \/ exists ev, st = Some (n, ev)).
  match goal with |- forr P ?b ?s = None => assert (G : (P <= p)%nat /\ ok (length (idx2 P n1)) (forr P b s) \/ (p < P)%nat /\ forr P b s = None) end; [|destruct G as [[A _]|[_ A]]; [lia|exact A]].
  apply (forr_inv P _ (fun i st => (i <= p)%nat /\ ok (length (idx2 i n1)) st \/ (p < i)%nat /\ st = None)); [left; split; [lia|right; exists 0; reflexivity]|].
  intros i st Hi HS. rewrite <- (pre2_end n1). rewrite <- (pre2_0 n1) in HS.
  match goal with |- context [forr ?n ?b st] => set (body := b) end.
  assert (N : forall j, body j None = None) by reflexivity.
  assert (ST : forall j s, (j < n1 i)%nat -> ok (length (pre2 n1 i j)) s -> ok (length (pre2 n1 i (S j))) (body j s)).
  { intros j s Hj [->|(ev & ->)]; [left; apply N|]. unfold body, ok. rewrite pre2_S, app_length. cbn [length bind]. rewrite Nat.add_1_r. clear H. repeat match goal with |- context [bind ?x _] => destruct x; cbn [bind]; [|left; reflexivity] end. right; eauto. }
  destruct HS as [[L O]|[L ->]]; [|right; split; [lia|apply forr_strict; exact N]]. destruct (Nat.eq_dec i p) as [->|NE].
  - right. split; [lia|].
    assert (G : (n1 p <= q)%nat /\ ok (length (pre2 n1 p (n1 p))) (forr (n1 p) body st) \/ (q < n1 p)%nat /\ forr (n1 p) body st = None); [|destruct G as [[A _]|[_ A]]; [exfalso; apply (Nat.lt_irrefl q); eapply Nat.lt_le_trans; eauto|exact A]].
    apply (forr_inv (n1 p) _ (fun j s => (j <= q)%nat /\ ok (length (pre2 n1 p j)) s \/ (q < j)%nat /\ s = None)); [left; split; [lia|exact O]|].
    intros j s Hj [[A B]|[A ->]]; [|right; split; [lia|apply N]]. destruct (Nat.eq_dec j q) as [->|]; [|left; split; [lia|apply ST; auto]]. right. split; [lia|].
    destruct B as [->|(ev & ->)]; [apply N|]. unfold body. cbn [bind]. rewrite H. repeat match goal with |- bind ?x _ = None => destruct x; [cbn [bind]|reflexivity] end. reflexivity.
  - left. split; [lia|]. apply (forr_inv (n1 i) _ (fun j s => ok (length (pre2 n1 i j)) s)); [exact O|]. intros j s Hj. apply ST. exact Hj.
Qed.
(** Hence at the collapsed end itself a triangle has no value, whatever the coefficients: with C114_collapsed_end_refuted; the exact sum is finite. *)
Theorem C115_collapsed_end_refuted F f T P dofs ls0 : (2 <= P)%nat -> evaluate_tri_d f P dofs ls0 (mod_B_d F T P 1) = None.
Proof.
  intros HP. apply (C115_tri_not_finite f P dofs ls0 _ 1 0); [lia|lia|]. destruct (C114_collapsed_end_refuted F T P HP) as [E _].
  replace (length (idx2 1 (fun p => (P - p)%nat)) + 0)%nat with P; [intros v; rewrite E; discriminate|]. rewrite idx2_length. cbn [nsum]. lia.
Qed.
Print Assumptions C115_collapsed_end_refuted.
Example C115_applied : let z := 1 - / 2 ^ 53 in let dofs := repeat 1 36 in coordinate z /\ (forall c, In c dofs -> nodal c) /\
  sum_within 8 dofs (evaluate_tri_d (fun n => Nat.even n) 8 dofs (mod_A_d (fun _ => (None, true)) (make_table_d 6 13) 8 (-1)) (mod_B_d (fun _ _ => (Some true, false)) (make_table_d 6 13) 8 z))
    (modes_tri 8 (-1) z) (sizes_tri 8) /\ sum_error 8 36 <= / 2 ^ 42.
Proof.
  intros z dofs. destruct C114_applied as (C & L & _). fold z in C, L. assert (HD : forall c, In c dofs -> nodal c).
  { intros c Hc. apply repeat_spec in Hc. subst c. split; [apply (dbl_Z 1); lia|right]. rewrite Rabs_R1. split; [|apply pow_R1_Rle; lra].
    apply Rle_trans with (/ 2 ^ 0); [apply pw; lia|cbn [pow]; lra]. }
  split; [auto|]. split; [auto|]. split.
  - apply C115_tri; auto; try lia; [split; [apply (dbl_Z (-1)); lia|lra]].
  - unfold sum_error, unit_roundoff. rewrite !INR_IZR_INZ. change (Z.of_nat 8) with 8%Z. change (Z.of_nat 36) with 36%Z. cbn. lra.
Qed.
