(** Lemmas for C116. *)
From Flocq Require Import Core.
From Verif Require Import M_RealBase L_RealBase M_Loop L_Loop M_Grid M_Double S_Double L_Double L_Double2 M_BorisD L_SumD L_CoordD L_BaryD S_BaryD P_Double S_Jacobi L_Jacobi L_Basis1 S_Basis L_Basis3 L_Basis4 M_BasisD S_BasisD L_BasisD L_BasisD2 L_BasisD3 P_BasisD M_EvalD S_EvalD L_EvalD L_EvalD2 M_ProjectD S_ProjectD.
From Coq Require Import Reals Lra Lia ZArith Bool Arith List.
Import ListNotations.
Open Scope R_scope.
Notation fl := M_Double.fl.

Section Shapes.
Context (P : nat) (HP : (2 <= P <= 32)%nat) (e0 e1 e2 : R) (C0 : coordinate e0) (C1 : coordinate e1) (C2 : coordinate e2).
Context (v : R) (HV : nodal v).
Notation K1 := (28 * P + 64)%nat.
Notation K0 := (3 * K1 + 8)%nat.
(** [a] holds the contributions of the modes of [l] *)
Definition Con {I} (y m : I -> R) (l : list I) (a : adds) : Prop :=
  map fst a = seq 0 (length l) /\ Forall2 (fun e i => nd K0 e (v * y i) (Rabs v * m i)) (map snd a) l.
Definition Cons {I} (y m : I -> R) (l : list I) (st : option adds) : Prop := exists a, st = Some a /\ Con y m l a.
Definition Cons1 {I} (y m : I -> R) (l : list I) (st : option (nat * adds)) : Prop := exists a, st = Some (length l, a) /\ Con y m l a.
Lemma con_nil {I} (y m : I -> R) : Con y m [] [].
Proof. split; [reflexivity|constructor]. Qed.
Lemma con_snoc {I} (y m : I -> R) l a i e k K ye me : Con y m l a -> k = length l -> nd K e ye me -> (K <= K0)%nat -> ye = v * y i -> me = Rabs v * m i -> Con y m (l ++ [i]) (a ++ [(k, e)]).
Proof.
  intros [A B] -> N HK -> ->. split.
  - rewrite map_app, A, app_length, seq_app. reflexivity.
  - rewrite map_app. apply Forall2_app; [auto|]. constructor; [|constructor]. cbn [snd]. eapply nd_le; [exact HK|exact N].
Qed.
Lemma v_mul e Ke ye me : nd Ke e ye me -> (Ke <= 3 * K1)%nat -> 1 <= me <= 2 ^ 550 -> exists t, fl (v * e) = Some t /\ nd (Ke + 2) t (v * ye) (Rabs v * me).
Proof. intros N HK R. apply (c_mul P HP v e Ke ye me HV N HK R). Qed.
(** (value times a product) times a mode *)
Lemma vm_mul a b Ka Kb ya yb ma mb : nd Ka a (v * ya) (Rabs v * ma) -> nd Kb b yb mb -> (Ka + Kb <= 4 * K1)%nat -> 1 <= ma * mb <= 2 ^ 550 ->
  exists t, fl (a * b) = Some t /\ nd (Ka + Kb + 2) t (v * (ya * yb)) (Rabs v * (ma * mb)).
Proof.
  intros N N' HK R. destruct (nf_mul _ _ _ _ _ _ _ _ N N') as (t & E & Nt); [rewrite Rmult_assoc; apply okm_c; [auto|apply R|apply R]|unfold few; lia|].
  exists t. split; [auto|]. rewrite !Rmult_assoc in Nt. exact Nt.
Qed.
Lemma mv_mul a b Ka Kb ya yb ma mb : nd Ka a (v * ya) (Rabs v * ma) -> nd Kb b yb mb -> (Ka + Kb <= 4 * K1)%nat -> 1 <= ma * mb <= 2 ^ 550 ->
  exists t, fl (b * a) = Some t /\ nd (Ka + Kb + 2) t (v * (ya * yb)) (Rabs v * (ma * mb)).
Proof. rewrite (Rmult_comm b a). apply vm_mul. Qed.
Lemma v_one t K : nd K t v (Rabs v) -> nd K t (v * 1) (Rabs v * 1). Proof. rewrite !Rmult_1_r. auto. Qed.
Lemma v_nd : nd 0 v (v * 1) (Rabs v * 1). Proof. apply v_one, nd_c; auto. Qed.
Lemma rgA p : (p < P)%nat -> 1 <= size_A p <= 2 ^ 100. Proof. intros; apply size_A_range; lia. Qed.
Lemma rg a i : 1 <= a <= 2 ^ i -> (i <= 550)%nat -> 1 <= a <= 2 ^ 550. Proof. intros A H. eapply range_le; eauto. Qed.

Lemma quad_P ls0 ls1 : space P ls0 (sized_A P e0) -> space P ls1 (sized_A P e1) ->
  Cons (fun '(q, p) => modA p e0 * modA q e1) (fun '(q, p) => size_A p * size_A q) (idx2 P (fun _ => P)) (project_quad_d P v ls0 ls1).
Proof.
  intros S0 S1. unfold project_quad_d. set (y := fun '(q, p) => _). set (m := fun '(q, p) => _).
  apply (forr_inv P _ (fun p st => Cons y m (idx2 p (fun _ => P)) st)); [exists []; split; [reflexivity|apply con_nil]|]. intros q st Hq HS. rewrite <- (pre2_end (fun _ => P)).
  rewrite <- (pre2_0 (fun _ => P)) in HS. apply (forr_inv P _ (fun p st => Cons y m (pre2 (fun _ => P) q p) st)); [exact HS|]. clear st HS. intros p st Hp (a & -> & A).
  rewrite pre2_S. cbn [bind]. destruct (entry_A P e0 ls0 p) as (a0 & -> & N0); auto; [lia|]. destruct (entry_A P e1 ls1 q) as (a1 & -> & N1); auto; [lia|]. cbn [bind].
  pose proof (rgA p Hp) as R0. pose proof (rgA q Hq) as R1. destruct (v_mul _ _ _ _ N0 ltac:(lia) (rg _ _ R0 ltac:(lia))) as (t & -> & Nt). cbn [bind].
  destruct (vm_mul _ _ _ _ _ _ _ _ Nt N1 ltac:(lia) (rg _ _ (prod_range _ _ _ _ R0 R1) ltac:(lia))) as (t' & -> & Nt'). cbn [bind]. eexists. split; [reflexivity|].
  eapply con_snoc; [exact A|rewrite pre2_length, nsum_const; reflexivity|exact Nt'|lia|reflexivity|reflexivity].
Qed.
Lemma tri_P ls0 ls1 : space P ls0 (sized_A P e0) -> space P ls1 (sized_B P e1) ->
  Cons (fun '(p, q) => (if Nat.eqb p 0 && Nat.eqb q 1 then 1 else modA p e0) * modB p q e1) (fun '(p, q) => (if Nat.eqb p 0 && Nat.eqb q 1 then 1 else size_A p) * size_B p q)
    (idx2 P (fun p => (P - p)%nat)) (project_tri_d P v ls0 ls1).
Proof.
  intros S0 S1. unfold project_tri_d. set (y := fun '(p, q) => _ * modB p q e1). set (m := fun '(p, q) => _ * size_B p q). set (n1 := fun p => (P - p)%nat) in *.
  match goal with |- Cons _ _ _ (bind (forr P ?b ?s) _) => assert (G : Cons1 y m (idx2 P n1) (forr P b s)) end.
  2:{ destruct G as (a & -> & A). exists a. split; [reflexivity|exact A]. }
  apply (forr_inv P _ (fun p st => Cons1 y m (idx2 p n1) st)); [exists []; split; [reflexivity|apply con_nil]|]. intros p st Hp HS. rewrite <- (pre2_end n1). rewrite <- (pre2_0 n1) in HS.
  apply (forr_inv (n1 p) _ (fun q st => Cons1 y m (pre2 n1 p q) st)); [exact HS|]. clear st HS. intros q st Hq (a & -> & A). rewrite pre2_S. cbn [bind].
  unfold n1 in Hq. pose proof (mode1_2 P p q ltac:(lia) ltac:(lia) Hq) as M1. fold n1 in M1. rewrite M1.
  destruct (entry_B P e1 ls1 p q) as (a1 & E1 & N1); auto; [lia|]. fold n1 in E1. rewrite E1. pose proof (size_B_range p q ltac:(lia)) as R1.
  assert (X : exists a0, (if Nat.eqb p 0 && Nat.eqb q 1 then Some 1 else entry ls0 p) = Some a0 /\ nd K1 a0 (if Nat.eqb p 0 && Nat.eqb q 1 then 1 else modA p e0) (if Nat.eqb p 0 && Nat.eqb q 1 then 1 else size_A p) /\
     1 <= (if Nat.eqb p 0 && Nat.eqb q 1 then 1 else size_A p) <= 2 ^ 100).
  { destruct (_ && _).
    - exists 1. split; [auto|]. split; [eapply nd_le; [|apply nd_exact; [apply (dbl_Z 1); lia|rewrite Rabs_R1; lra]]; lia|split; [lra|apply pow_R1_Rle; lra]].
    - destruct (entry_A P e0 ls0 p) as (a0 & E0 & N0); auto; [lia|]. exists a0. split; [auto|]. split; [auto|apply size_A_range; lia]. }
  destruct X as (a0 & -> & N0 & R0). cbn [bind]. destruct (v_mul _ _ _ _ N0 ltac:(lia) (rg _ _ R0 ltac:(lia))) as (t & -> & Nt). cbn [bind].
  destruct (vm_mul _ _ _ _ _ _ _ _ Nt N1 ltac:(lia) (rg _ _ (prod_range _ _ _ _ R0 R1) ltac:(lia))) as (t' & -> & Nt'). cbn [bind].
  eexists. split; [rewrite app_length, Nat.add_1_r; reflexivity|]. eapply con_snoc; [exact A|reflexivity|exact Nt'|lia|reflexivity|reflexivity].
Qed.
Lemma hex_P ls0 ls1 ls2 : space P ls0 (sized_A P e0) -> space P ls1 (sized_A P e1) -> space P ls2 (sized_A P e2) ->
  Cons (fun '(r, q, p) => modA p e0 * modA q e1 * modA r e2) (fun '(r, q, p) => size_A p * size_A q * size_A r) (idx3 P (fun _ => P) (fun _ _ => P)) (project_hex_d P v ls0 ls1 ls2).
Proof.
  intros S0 S1 S2. unfold project_hex_d. set (y := fun '(r, q, p) => _ * modA r e2). set (m := fun '(r, q, p) => _ * size_A r).
  set (n1 := fun _ : nat => P) in *. set (n2 := fun _ _ : nat => P) in *.
  apply (forr_inv P _ (fun r st => Cons y m (idx3 r n1 n2) st)); [exists []; split; [reflexivity|apply con_nil]|]. intros r st Hr HS. rewrite <- (pre3_end2 n1 n2). rewrite <- (pre3_00 n1 n2) in HS. cbv zeta.
  destruct (entry_A P e2 ls2 r) as (a2 & -> & N2); auto; [lia|]. cbn [bind]. pose proof (rgA r Hr) as R2.
  rewrite (Rmult_comm a2 v). destruct (v_mul _ _ _ _ N2 ltac:(lia) (rg _ _ R2 ltac:(lia))) as (t & -> & Nt). cbn [bind].
  apply (forr_inv (n1 r) _ (fun q st => Cons y m (pre3 n1 n2 r q 0) st)); [exact HS|]. clear st HS. intros q st Hq HS. unfold n1 in Hq.
  destruct (entry_A P e1 ls1 q) as (a1 & -> & N1); auto; [lia|]. cbn [bind]. pose proof (rgA q Hq) as R1.
  pose proof (prod_range _ _ _ _ R2 R1) as R21. destruct (mv_mul _ _ _ _ _ _ _ _ Nt N1 ltac:(lia) (rg _ _ R21 ltac:(lia))) as (t' & -> & Nt'). cbn [bind]. rewrite <- (pre3_end n1 n2).
  apply (forr_inv (n2 r q) _ (fun p st => Cons y m (pre3 n1 n2 r q p) st)); [exact HS|]. clear st HS. intros p st Hp (a & -> & A). rewrite pre3_S. cbn [bind].
  unfold n2 in Hp. pose proof (hex_mode P ltac:(lia) r q p) as HM. change (length (pre3 n1 n2 r q p) = (p + (q * P + r * P * P))%nat) in HM.
  destruct (entry_A P e0 ls0 p) as (a0 & -> & N0); auto; [lia|]. cbn [bind]. pose proof (rgA p Hp) as R0.
  destruct (mv_mul _ _ _ _ _ _ _ _ Nt' N0 ltac:(lia) (rg _ _ (prod_range _ _ _ _ R21 R0) ltac:(lia))) as (e & -> & Ne). cbn [bind]. eexists. split; [reflexivity|].
  eapply con_snoc; [exact A|symmetry; exact HM|exact Ne|lia|unfold y; ring|unfold m; ring].
Qed.
Lemma prism_P ls0 ls1 ls2 : space P ls0 (sized_A P e0) -> space P ls1 (sized_A P e1) -> space P ls2 (sized_B P e2) ->
  Cons (fun '(p, q, r) => (if Nat.eqb p 0 && Nat.eqb r 1 then 1 else modA p e0) * modA q e1 * modB p r e2) (fun '(p, q, r) => (if Nat.eqb p 0 && Nat.eqb r 1 then 1 else size_A p) * size_A q * size_B p r)
    (idx3 P (fun _ => P) (fun p _ => (P - p)%nat)) (project_prism_d P v ls0 ls1 ls2).
Proof.
  intros S0 S1 S2. unfold project_prism_d. set (y := fun '(p, q, r) => _ * modB p r e2). set (m := fun '(p, q, r) => _ * size_B p r).
  set (n1 := fun _ : nat => P) in *. set (n2 := fun p _ : nat => (P - p)%nat) in *. set (nB := fun p => (P - p)%nat).
  match goal with |- Cons _ _ _ (bind (forr P ?b ?s) _) => assert (G : exists a, forr P b s = Some (length (pre2 nB P 0), (length (idx3 P n1 n2), a)) /\ Con y m (idx3 P n1 n2) a) end.
  2:{ destruct G as (a & -> & A). exists a. split; [reflexivity|exact A]. }
  apply (forr_inv P _ (fun p st => exists a, st = Some (length (pre2 nB p 0), (length (idx3 p n1 n2), a)) /\ Con y m (idx3 p n1 n2) a)); [exists []; split; [reflexivity|apply con_nil]|].
  intros p st Hp (ev0 & -> & A0). destruct (entry_A P e0 ls0 p) as (a0 & -> & N0); auto; [lia|]. cbn [bind]. pose proof (rgA p Hp) as R0.
  match goal with |- context [forr P ?b ?s] => assert (G : Cons1 y m (pre3 n1 n2 p (n1 p) 0) (forr P b s)) end.
  2:{ destruct G as (ev & -> & A). rewrite (pre3_end2 n1 n2) in *. exists ev. split; [|exact A]. cbn [bind]. do 2 f_equal.
      rewrite !pre2_0, <- (pre2_end nB), pre2_length. rewrite <- (pre2_0 nB), pre2_length. unfold nB. lia. }
  apply (forr_inv P _ (fun q st => Cons1 y m (pre3 n1 n2 p q 0) st)); [exists ev0; rewrite (pre3_00 n1 n2); auto|]. clear ev0 A0. intros q st Hq HS. unfold n1 in Hq.
  destruct (entry_A P e1 ls1 q) as (a1 & -> & N1); auto; [lia|]. cbn [bind]. pose proof (rgA q Hq) as R1. rewrite <- (pre3_end n1 n2).
  apply (forr_inv (n2 p q) _ (fun r st => Cons1 y m (pre3 n1 n2 p q r) st)); [exact HS|]. clear st HS. intros r st Hr (ev & -> & A). rewrite pre3_S. cbn [bind].
  unfold n2 in Hr. destruct (entry_B P e2 ls2 p r) as (a2 & E2 & N2); auto; [lia|]. fold nB in E2.
  replace (length (pre2 nB p 0) + r)%nat with (length (pre2 nB p r)) by (rewrite !pre2_length; lia). rewrite E2. cbn [bind]. pose proof (size_B_range p r ltac:(lia)) as R2.
  assert (T : exists t, (if Nat.eqb p 0 && Nat.eqb r 1 then do t <- fl (v * a1); fl (t * a2) else do t <- fl (v * a0); do t' <- fl (t * a1); fl (t' * a2)) = Some t /\ nd K0 t (v * y (p, q, r)) (Rabs v * m (p, q, r))).
  { unfold y, m. destruct (_ && _).
    - destruct (v_mul _ _ _ _ N1 ltac:(lia) (rg _ _ R1 ltac:(lia))) as (t & -> & Nt). cbn [bind].
      destruct (vm_mul _ _ _ _ _ _ _ _ Nt N2 ltac:(lia) (rg _ _ (prod_range _ _ _ _ R1 R2) ltac:(lia))) as (t' & E & N). exists t'. split; [exact E|]. rewrite !Rmult_1_l. eapply nd_le; [|exact N]. lia.
    - destruct (v_mul _ _ _ _ N0 ltac:(lia) (rg _ _ R0 ltac:(lia))) as (t & -> & Nt). cbn [bind]. pose proof (prod_range _ _ _ _ R0 R1) as R01.
      destruct (vm_mul _ _ _ _ _ _ _ _ Nt N1 ltac:(lia) (rg _ _ R01 ltac:(lia))) as (t' & -> & N). cbn [bind].
      destruct (vm_mul _ _ _ _ _ _ _ _ N N2 ltac:(lia) (rg _ _ (prod_range _ _ _ _ R01 R2) ltac:(lia))) as (t'' & E & N'). exists t''. split; [exact E|]. eapply nd_le; [|exact N']. lia. }
  destruct T as (t & -> & Nt). cbn [bind]. eexists. split; [rewrite app_length, Nat.add_1_r; reflexivity|]. eapply con_snoc; [exact A|reflexivity|exact Nt|lia|reflexivity|reflexivity].
Qed.
Lemma tet_P ls0 ls1 ls2 : space P ls0 (sized_A P e0) -> space P ls1 (sized_B P e1) -> space P ls2 (sized_C P e2) ->
  Cons (fun '(p, q, r) => (if Nat.eqb p 0 && (Nat.eqb q 1 || Nat.eqb q 0 && Nat.eqb r 1) then 1 else modA p e0) * (if Nat.eqb p 0 && Nat.eqb q 0 && Nat.eqb r 1 then 1 else modB p q e1) * modC p q r e2)
    (fun '(p, q, r) => (if Nat.eqb p 0 && (Nat.eqb q 1 || Nat.eqb q 0 && Nat.eqb r 1) then 1 else size_A p) * (if Nat.eqb p 0 && Nat.eqb q 0 && Nat.eqb r 1 then 1 else size_B p q) * size_B (p + q) r)
    (idx3 P (fun p => (P - p)%nat) (fun p q => (P - p - q)%nat)) (project_tet_d P v ls0 ls1 ls2).
Proof.
  intros S0 S1 S2. unfold project_tet_d. set (y := fun '(p, q, r) => _ * modC p q r e2). set (m := fun '(p, q, r) => _ * size_B (p + q) r).
  set (n1 := fun p => (P - p)%nat) in *. set (n2 := fun p q : nat => (P - p - q)%nat) in *.
  set (Q := fun p q st => exists a, st = Some (length (pre2 n1 p q), (length (pre3 n1 n2 p q 0), a)) /\ Con y m (pre3 n1 n2 p q 0) a).
  match goal with |- Cons _ _ _ (bind (forr P ?b ?s) _) => assert (G : Q P 0%nat (forr P b s)) end.
  2:{ destruct G as (a & -> & A). rewrite (pre3_00 n1 n2) in A. exists a. split; [reflexivity|exact A]. }
  apply (forr_inv P _ (fun p st => Q p 0%nat st)); [exists []; split; [reflexivity|apply con_nil]|].
  intros p st Hp HS. destruct (entry_A P e0 ls0 p) as (a0 & -> & N0); auto; [lia|]. cbn [bind]. pose proof (rgA p Hp) as R0.
  match goal with |- Q _ _ (forr ?n ?b ?s) => assert (G : Q p (n1 p) (forr n b s)) end.
  2:{ destruct G as (ev & -> & A). rewrite (pre3_end2 n1 n2) in A. exists ev. rewrite pre2_0, (pre3_00 n1 n2), <- (pre2_end n1), <- (pre3_end2 n1 n2) in *. auto. }
  apply (forr_inv (n1 p) _ (fun q st => Q p q st)); [exact HS|]. clear st HS. intros q st Hq (ev0 & -> & A0). cbn [bind]. assert (Hq' : (q < P - p)%nat) by exact Hq.
  destruct (entry_B P e1 ls1 p q) as (a1 & E1 & N1); auto; [unfold n1 in *; lia|]. fold n1 in E1. rewrite E1. cbn [bind]. pose proof (size_B_range p q ltac:(lia)) as R1.
  match goal with |- Q _ _ (bind (forr ?n ?b ?s) _) => assert (G : Cons1 y m (pre3 n1 n2 p q (n2 p q)) (forr n b s)) end.
  2:{ destruct G as (ev & -> & A). rewrite (pre3_end n1 n2) in *. cbn [bind]. exists ev. split; [|exact A]. do 3 f_equal. rewrite !pre2_length. lia. }
  apply (forr_inv (n2 p q) _ (fun r st => Cons1 y m (pre3 n1 n2 p q r) st)); [exists ev0; auto|]. clear ev0 A0. intros r st Hr (ev & -> & A). rewrite pre3_S. cbn [bind]. assert (Hr' : (r < P - p - q)%nat) by exact Hr.
  destruct (entry_C P e2 ls2 p q r) as (a2 & E2 & N2); auto; [lia|]. fold n1 n2 in E2.
  change (pre3 (fun p => (P - p)%nat) n2) with (pre3 n1 n2) in E2. rewrite E2. cbn [bind]. pose proof (size_B_range (p + q) r ltac:(lia)) as R2.
  pose proof (mode1_3 P n1 n2 p q r ltac:(lia) ltac:(unfold n2; lia) ltac:(unfold n1; intros; lia) Hp Hq Hr) as M1. rewrite M1.
  assert (T : exists t, (if Nat.eqb p 0 && Nat.eqb q 0 && Nat.eqb r 1 then fl (v * a2) else if Nat.eqb p 0 && Nat.eqb q 1 then do t <- fl (v * a1); fl (t * a2)
      else do t <- fl (v * a0); do t' <- fl (t * a1); fl (t' * a2)) = Some t /\ nd K0 t (v * y (p, q, r)) (Rabs v * m (p, q, r))).
  { assert (G3 : exists t, (do t <- fl (v * a0); do t' <- fl (t * a1); fl (t' * a2)) = Some t /\ nd K0 t (v * (modA p e0 * modB p q e1 * modC p q r e2)) (Rabs v * (size_A p * size_B p q * size_B (p + q) r))).
    { destruct (v_mul _ _ _ _ N0 ltac:(lia) (rg _ _ R0 ltac:(lia))) as (t & -> & Nt). cbn [bind]. pose proof (prod_range _ _ _ _ R0 R1) as R01.
      destruct (vm_mul _ _ _ _ _ _ _ _ Nt N1 ltac:(lia) (rg _ _ R01 ltac:(lia))) as (t' & -> & N). cbn [bind].
      destruct (vm_mul _ _ _ _ _ _ _ _ N N2 ltac:(lia) (rg _ _ (prod_range _ _ _ _ R01 R2) ltac:(lia))) as (t'' & E & N'). exists t''. split; [exact E|]. eapply nd_le; [|exact N']. lia. }
    unfold y, m. destruct (Nat.eqb p 0) eqn:Ep; cbn [andb] in *; [destruct (Nat.eqb q 0) eqn:Eq|exact G3]; cbn [andb orb] in *.
    - assert (Eq1 : Nat.eqb q 1 = false) by (apply Nat.eqb_eq in Eq; subst q; reflexivity). rewrite Eq1 in *. cbn [orb] in *. destruct (Nat.eqb r 1) eqn:Er; [|exact G3].
      destruct (v_mul _ _ _ _ N2 ltac:(lia) (rg _ _ R2 ltac:(lia))) as (t & E & Nt). exists t. split; [exact E|]. rewrite !Rmult_1_l. eapply nd_le; [|exact Nt]. lia.
    - destruct (Nat.eqb q 1) eqn:Eq1; cbn [orb] in *; [|exact G3].
      destruct (v_mul _ _ _ _ N1 ltac:(lia) (rg _ _ R1 ltac:(lia))) as (t & -> & Nt). cbn [bind].
      destruct (vm_mul _ _ _ _ _ _ _ _ Nt N2 ltac:(lia) (rg _ _ (prod_range _ _ _ _ R1 R2) ltac:(lia))) as (t' & E & N). exists t'. split; [exact E|]. rewrite !Rmult_1_l. eapply nd_le; [|exact N]. lia. }
  destruct T as (t & -> & Nt). cbn [bind]. eexists. split; [rewrite app_length, Nat.add_1_r; reflexivity|]. eapply con_snoc; [exact A|reflexivity|exact Nt|lia|reflexivity|reflexivity].
Qed.
End Shapes.
