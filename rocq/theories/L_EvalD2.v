(** Lemmas for C115: the loops over modes. *)
From Flocq Require Import Core.
From Verif Require Import M_RealBase L_RealBase M_Loop L_Loop M_Grid M_Double S_Double L_Double L_Double2 M_BorisD L_SumD L_CoordD L_BaryD S_BaryD P_Double S_Jacobi L_Jacobi L_Basis1 S_Basis L_Basis3 L_Basis4 M_BasisD S_BasisD L_BasisD L_BasisD2 L_BasisD3 P_BasisD M_EvalD S_EvalD L_EvalD.
From Coq Require Import Reals Lra Lia ZArith Bool Arith List.
Import ListNotations.
Open Scope R_scope.
Notation fl := M_Double.fl.

Lemma forr_inv {S} n (body : nat -> S -> S) (Q : nat -> S -> Prop) s0 : Q 0%nat s0 -> (forall i s, (i < n)%nat -> Q i s -> Q (Datatypes.S i) (body i s)) -> Q n (forr n body s0).
Proof. intros H0 H. induction n as [|n IH]; [exact H0|]. rewrite forr_S. apply H; [lia|]. apply IH. intros i s Hi. apply H. lia. Qed.
Lemma okc c s : nodal c -> 1 <= s -> s <= 2 ^ 550 -> small_or (Rabs c * s) /\ 0 <= Rabs c * s <= 2 ^ 750.
Proof.
  intros (_ & N) S1 S2. pose proof (Rabs_pos c) as C0. split.
  - destruct N as [->|[N _]]; [left; rewrite Rabs_R0; ring|right]. apply Rle_trans with (/ 2 ^ 200 * 1); [rewrite Rmult_1_r; apply (pw 200 900); lia|].
    apply Rmult_le_compat; [left; apply Rinv_0_lt_compat, pow_lt; lra|lra|auto|auto].
  - split; [apply Rmult_le_pos; lra|]. assert (Rabs c <= 2 ^ 200). { destruct N as [->|[_ N]]; [rewrite Rabs_R0; apply pow_le; lra|auto]. }
    apply Rle_trans with (2 ^ 200 * 2 ^ 550); [apply Rmult_le_compat; lra|]. rewrite <- pow_add. apply Rle_pow; [lra|lia].
Qed.
Lemma okm_c c s : nodal c -> 1 <= s -> s <= 2 ^ 550 -> okm (Rabs c * s).
Proof. intros N A B. destruct (okc c s N A B) as (S & _ & U). split; [auto|]. eapply Rle_trans; [exact U|apply Rle_pow; [lra|lia]]. Qed.
Lemma nd_c c : nodal c -> nd 0 c c (Rabs c).
Proof. intros [D _]. apply nd_exact; [auto|lra]. Qed.
Lemma prod_range a b i j : 1 <= a <= 2 ^ i -> 1 <= b <= 2 ^ j -> 1 <= a * b <= 2 ^ (i + j).
Proof. intros [A A'] [B B']. split; [apply ge1_mul; auto|]. rewrite pow_add. apply Rmult_le_compat; lra. Qed.
Lemma range_le a i j : (i <= j)%nat -> 1 <= a <= 2 ^ i -> 1 <= a <= 2 ^ j.
Proof. intros H [A B]. split; [auto|]. eapply Rle_trans; [exact B|]. apply Rle_pow; [lra|auto]. Qed.

Section Acc.
Context (dofs : list R) (I : Type) (y m : I -> R) (K0 : nat).
Definition Acc (l : list I) (ev : R) : Prop :=
  nd (K0 + 4 * length l) ev (dot dofs (map y l)) (dot (map Rabs dofs) (map m l)) /\ small_or (dot (map Rabs dofs) (map m l)) /\
  dot (map Rabs dofs) (map m l) <= INR (length l) * 2 ^ 750.
Lemma acc_nil : Acc [] 0.
Proof.
  unfold Acc. cbn [map length]. assert (E : forall d, dot d [] = 0) by (intros [|? ?]; reflexivity). rewrite !E. split; [|split; [left; auto|cbn [INR]; lra]].
  eapply nd_le; [|apply nd_exact; [apply dbl_0|rewrite Rabs_R0; lra]]. lia.
Qed.
Lemma acc_snoc f l i ev c a b ya yb ma mb Ka Kb : Acc l ev -> nodal c -> nth_error dofs (length l) = Some c -> nd Ka a ya ma -> nd Kb b yb mb -> (Ka + Kb <= K0)%nat ->
  few (K0 + 4 * length l + 2) -> ya * yb = c * y i -> ma * mb = Rabs c * m i -> 1 <= m i <= 2 ^ 550 ->
  exists r, mul_add f a b ev = Some r /\ Acc (l ++ [i]) r.
Proof.
  intros (N & S & U) Hc E A B HK HF Ey Em Hm. destruct (okc c (m i) Hc) as (S1 & B0 & B1); try apply Hm.
  assert (EA : nth_error (map Rabs dofs) (length l) = Some (Rabs c)) by (rewrite nth_error_map, E; reflexivity).
  assert (D1 : dot dofs (map y (l ++ [i])) = dot dofs (map y l) + c * y i) by (rewrite map_app; apply dot_app; rewrite map_length; auto).
  assert (D2 : dot (map Rabs dofs) (map m (l ++ [i])) = dot (map Rabs dofs) (map m l) + Rabs c * m i) by (rewrite map_app; apply dot_app; rewrite map_length; auto).
  pose proof (nd_pos _ _ _ _ N) as M0. assert (UL : INR (length l) <= 2 ^ 21).
  { unfold few in HF. assert (HZ : (Z.of_nat (length l) <= 2 ^ 21)%Z) by lia. apply IZR_le in HZ. rewrite <- INR_IZR_INZ in HZ. replace (2 ^ 21) with 2097152 by (cbn; lra). exact HZ. }
  assert (P7 : 0 < 2 ^ 750) by (apply pow_lt; lra).
  assert (UB : dot (map Rabs dofs) (map m l) + Rabs c * m i <= 2 ^ 900).
  { apply Rle_trans with (2 ^ 21 * 2 ^ 750 + 1 * 2 ^ 750); [apply Rplus_le_compat; [eapply Rle_trans; [exact U|apply Rmult_le_compat_r; lra]|lra]|]. rewrite <- Rmult_plus_distr_r.
    apply Rle_trans with (2 ^ 22 * 2 ^ 750); [apply Rmult_le_compat_r; [lra|cbn; lra]|]. rewrite <- pow_add. apply Rle_pow; [lra|lia]. }
  destruct (nf_ma f _ _ _ _ _ _ _ _ _ _ _ _ A B N) as (r & Er & Nr); [lia|auto|rewrite Em; auto|auto|rewrite Em; lra|].
  exists r. split; [auto|]. unfold Acc. rewrite D1, D2, app_length. cbn [length]. rewrite Ey, Em in Nr. split; [|split].
  - rewrite (Rplus_comm (dot dofs _)), (Rplus_comm (dot (map Rabs dofs) _)). replace (K0 + 4 * (length l + 1))%nat with (K0 + 4 * length l + 4)%nat by lia. exact Nr.
  - apply small_sum; auto.
  - rewrite Nat.add_1_r, S_INR. lra.
Qed.
Lemma acc_end l ev : Acc l ev -> few (K0 + 4 * length l) -> is_double ev /\ Rabs (ev - dot dofs (map y l)) <= 2 * INR (K0 + 4 * length l) * u * dot (map Rabs dofs) (map m l).
Proof. intros (N & _) F. split; [apply N|]. apply nf_within; auto. Qed.
End Acc.

(** ** The number of modes *)
Lemma pre2_lt n1 P p q : (p < P)%nat -> (q < n1 p)%nat -> (length (pre2 n1 p q) < length (idx2 P n1))%nat.
Proof. intros Hp Hq. destruct (idx2_split n1 P p q Hp Hq) as (rest & ->). rewrite app_length. cbn. lia. Qed.
Lemma pre3_lt n1 n2 P p q r : (p < P)%nat -> (q < n1 p)%nat -> (r < n2 p q)%nat -> (length (pre3 n1 n2 p q r) < length (idx3 P n1 n2))%nat.
Proof. intros Hp Hq Hr. destruct (idx3_split n1 n2 P p q r Hp Hq Hr) as (rest & ->). rewrite app_length. cbn. lia. Qed.
Lemma nsum_le n f k : (forall i, (i < n)%nat -> (f i <= k)%nat) -> (nsum n f <= n * k)%nat.
Proof. induction n; intros H; cbn [nsum]; [lia|]. pose proof (IHn ltac:(intros; apply H; lia)). pose proof (H n ltac:(lia)). lia. Qed.
Lemma idx2_few n1 P : (P <= 32)%nat -> (forall p, (n1 p <= P)%nat) -> (length (idx2 P n1) <= 1024)%nat.
Proof. intros HP H. rewrite idx2_length. pose proof (nsum_le P n1 P ltac:(auto)). nia. Qed.
Lemma idx3_few n1 n2 P : (P <= 32)%nat -> (forall p, (n1 p <= P)%nat) -> (forall p q, (n2 p q <= P)%nat) -> (Z.of_nat (length (idx3 P n1 n2)) <= 32768)%Z.
Proof.
  intros HP H1 H2. rewrite idx3_length. assert (B : (nsum P (fun p => nsum (n1 p) (n2 p)) <= P * (P * P))%nat).
  { apply nsum_le. intros i Hi. etransitivity; [apply (nsum_le _ _ P); auto|]. specialize (H1 i). nia. }
  apply Nat2Z.inj_le in B. rewrite !Nat2Z.inj_mul in B. assert (0 <= Z.of_nat P <= 32)%Z by lia. nia.
Qed.

Section Shapes.
Context (P : nat) (HP : (2 <= P <= 32)%nat) (e0 e1 e2 : R) (C0 : coordinate e0) (C1 : coordinate e1) (C2 : coordinate e2).
Context (dofs : list R) (HD : forall c, In c dofs -> nodal c).
Notation K1 := (28 * P + 64)%nat.
Notation K0 := (3 * K1 + 8)%nat.
Lemma dof_at i n : (n <= length dofs)%nat -> (i < n)%nat -> exists c, nth_error dofs i = Some c /\ nodal c.
Proof. intros H Hi. destruct (nth_error dofs i) as [c|] eqn:E; [|apply nth_error_None in E; lia]. exists c. split; [auto|]. apply HD. eapply nth_error_In; eauto. Qed.
(** [st] holds the sum over the modes of [l] *)
Definition Sum {I} (y m : I -> R) (l : list I) (st : option R) : Prop := exists ev, st = Some ev /\ Acc dofs I y m K0 l ev.
Definition Sum1 {I} (y m : I -> R) (l : list I) (st : option (nat * R)) : Prop := exists ev, st = Some (length l, ev) /\ Acc dofs I y m K0 l ev.
Lemma sum_step {I} (y m : I -> R) f l i ev c a b ya yb ma mb Ka Kb : Acc dofs I y m K0 l ev -> nodal c -> nth_error dofs (length l) = Some c -> nd Ka a ya ma -> nd Kb b yb mb -> (Ka + Kb <= K0)%nat ->
  (Z.of_nat (length l) <= 32768)%Z -> ya * yb = c * y i -> ma * mb = Rabs c * m i -> 1 <= m i <= 2 ^ 550 -> Sum y m (l ++ [i]) (mul_add f a b ev).
Proof. intros A Nc E Na Nb HK HF Ey Em Hm. eapply (acc_snoc dofs I y m K0); eauto. unfold few. lia. Qed.
Lemma c_mul c e Ke ye me : nodal c -> nd Ke e ye me -> (Ke <= 3 * K1)%nat -> 1 <= me <= 2 ^ 550 -> exists t, fl (c * e) = Some t /\ nd (Ke + 2) t (c * ye) (Rabs c * me).
Proof.
  intros Nc N HK R. destruct (nf_mul _ _ _ _ _ _ _ _ (nd_c c Nc) N) as (t & E & Nt); [apply okm_c; [auto|apply R|apply R]|unfold few; lia|]. exists t. auto.
Qed.
Lemma quad_D f ls0 ls1 : (length (modes_quad P e0 e1) <= length dofs)%nat -> space P ls0 (sized_A P e0) -> space P ls1 (sized_A P e1) ->
  Sum (fun '(q, p) => modA p e0 * modA q e1) (fun '(q, p) => size_A p * size_A q) (idx2 P (fun _ => P)) (evaluate_quad_d f P dofs ls0 ls1).
Proof.
  intros HL S0 S1. unfold evaluate_quad_d. unfold modes_quad in HL. rewrite map_length in HL. set (y := fun '(q, p) => _). set (m := fun '(q, p) => _).
  apply (forr_inv P _ (fun p st => Sum y m (idx2 p (fun _ => P)) st)); [exists 0; split; [reflexivity|apply acc_nil]|]. intros q st Hq HS. rewrite <- (pre2_end (fun _ => P)).
  rewrite <- (pre2_0 (fun _ => P)) in HS. apply (forr_inv P _ (fun p st => Sum y m (pre2 (fun _ => P) q p) st)); [exact HS|]. clear st HS. intros p st Hp (ev & -> & A).
  pose proof (pre2_lt (fun _ => P) P q p Hq Hp) as LT. rewrite pre2_S. cbn [bind]. destruct (dof_at (q * P + p) _ HL) as (c & Ec & Nc).
  { rewrite pre2_length, nsum_const in LT. lia. }
  rewrite Ec. cbn [bind]. destruct (entry_A P e0 ls0 p) as (a0 & -> & N0); auto; [lia|]. destruct (entry_A P e1 ls1 q) as (a1 & -> & N1); auto; [lia|]. cbn [bind].
  pose proof (range_le _ 100 550 ltac:(lia) (size_A_range p ltac:(lia))) as R0. destruct (c_mul c _ _ _ _ Nc N0 ltac:(lia) R0) as (t & -> & Nt).
  cbn [bind]. pose proof (idx2_few (fun _ => P) P ltac:(lia) ltac:(auto)) as FW.
  eapply sum_step; [exact A|exact Nc|rewrite pre2_length, nsum_const; exact Ec|exact Nt|exact N1|lia|lia|cbn; ring|cbn; ring|].
  apply (range_le _ 200); [lia|]. apply (prod_range _ _ 100 100); apply size_A_range; lia.
Qed.
Lemma sum1_step {I} (y m : I -> R) f l i ev c a b ya yb ma mb Ka Kb : Acc dofs I y m K0 l ev -> nodal c -> nth_error dofs (length l) = Some c -> nd Ka a ya ma -> nd Kb b yb mb -> (Ka + Kb <= K0)%nat ->
  (Z.of_nat (length l) <= 32768)%Z -> ya * yb = c * y i -> ma * mb = Rabs c * m i -> 1 <= m i <= 2 ^ 550 -> Sum1 y m (l ++ [i]) (do e <- mul_add f a b ev; Some (S (length l), e)).
Proof.
  intros A Nc E Na Nb HK HF Ey Em Hm. destruct (sum_step y m f l i ev c a b ya yb ma mb Ka Kb) as (r & -> & Ar); auto. cbn [bind]. exists r. split; [|auto].
  rewrite app_length, Nat.add_1_r. reflexivity.
Qed.
Lemma tri_D f ls0 ls1 : (length (modes_tri P e0 e1) <= length dofs)%nat -> space P ls0 (sized_A P e0) -> space P ls1 (sized_B P e1) ->
  Sum (fun '(p, q) => (if Nat.eqb p 0 && Nat.eqb q 1 then 1 else modA p e0) * modB p q e1) (fun '(p, q) => (if Nat.eqb p 0 && Nat.eqb q 1 then 1 else size_A p) * size_B p q)
    (idx2 P (fun p => (P - p)%nat)) (evaluate_tri_d f P dofs ls0 ls1).
Proof.
  intros HL S0 S1. unfold evaluate_tri_d. unfold modes_tri in HL. rewrite map_length in HL. set (y := fun '(p, q) => _ * modB p q e1). set (m := fun '(p, q) => _ * size_B p q). set (n1 := fun p => (P - p)%nat) in *.
  match goal with |- Sum _ _ _ (bind (forr P ?b ?s) _) => assert (G : Sum1 y m (idx2 P n1) (forr P b s)) end.
  2:{ destruct G as (ev & -> & A). exists ev. split; [reflexivity|exact A]. }
  apply (forr_inv P _ (fun p st => Sum1 y m (idx2 p n1) st)); [exists 0; split; [reflexivity|apply acc_nil]|]. intros p st Hp HS. rewrite <- (pre2_end n1). rewrite <- (pre2_0 n1) in HS.
  apply (forr_inv (n1 p) _ (fun q st => Sum1 y m (pre2 n1 p q) st)); [exact HS|]. clear st HS. intros q st Hq (ev & -> & A). pose proof (pre2_lt n1 P p q Hp Hq) as LT. rewrite pre2_S. cbn [bind].
  destruct (dof_at (length (pre2 n1 p q)) _ HL LT) as (c & Ec & Nc). rewrite Ec. cbn [bind]. unfold n1 in Hq. pose proof (mode1_2 P p q ltac:(lia) ltac:(lia) Hq) as M1. fold n1 in M1. rewrite M1.
  destruct (entry_B P e1 ls1 p q) as (a1 & E1 & N1); auto; [lia|]. fold n1 in E1. rewrite E1. pose proof (idx2_few n1 P ltac:(lia) ltac:(unfold n1; lia)) as FW.
  assert (X : exists a0, (if Nat.eqb p 0 && Nat.eqb q 1 then Some 1 else entry ls0 p) = Some a0 /\ nd K1 a0 (if Nat.eqb p 0 && Nat.eqb q 1 then 1 else modA p e0) (if Nat.eqb p 0 && Nat.eqb q 1 then 1 else size_A p) /\
     1 <= (if Nat.eqb p 0 && Nat.eqb q 1 then 1 else size_A p) <= 2 ^ 100).
  { destruct (_ && _).
    - exists 1. split; [auto|]. split; [eapply nd_le; [|apply nd_exact; [apply (dbl_Z 1); lia|rewrite Rabs_R1; lra]]; lia|split; [lra|apply pow_R1_Rle; lra]].
    - destruct (entry_A P e0 ls0 p) as (a0 & E0 & N0); auto; [lia|]. exists a0. split; [auto|]. split; [auto|apply size_A_range; lia]. }
  destruct X as (a0 & -> & N0 & R0). cbn [bind]. destruct (c_mul c _ _ _ _ Nc N0 ltac:(lia) (range_le _ 100 550 ltac:(lia) R0)) as (t & -> & Nt). cbn [bind].
  eapply sum1_step; [exact A|exact Nc|exact Ec|exact Nt|exact N1|lia|lia|cbn; ring|cbn; ring|].
  apply (range_le _ 317); [lia|]. apply (prod_range _ _ 100 217); [exact R0|apply size_B_range; lia].
Qed.
Lemma md_mul a b Ka Kb ya yb ma mb i j : nd Ka a ya ma -> nd Kb b yb mb -> (Ka + Kb <= 4 * K1)%nat -> 1 <= ma <= 2 ^ i -> 1 <= mb <= 2 ^ j -> (i + j <= 550)%nat ->
  exists t, fl (a * b) = Some t /\ nd (Ka + Kb + 2) t (ya * yb) (ma * mb).
Proof.
  intros N N' HK Ra Rb H. destruct (range_le _ _ 550 H (prod_range _ _ _ _ Ra Rb)) as [A B]. apply nf_mul; auto; [|unfold few; lia]. apply okm_big. split.
  - apply Rle_trans with (/ 2 ^ 0); [apply pw; lia|cbn [pow]; lra]. - eapply Rle_trans; [exact B|apply Rle_pow; [lra|lia]].
Qed.
Lemma hex_D f ls0 ls1 ls2 : (length (modes_hex P e0 e1 e2) <= length dofs)%nat -> space P ls0 (sized_A P e0) -> space P ls1 (sized_A P e1) -> space P ls2 (sized_A P e2) ->
  Sum (fun '(r, q, p) => modA p e0 * modA q e1 * modA r e2) (fun '(r, q, p) => size_A p * size_A q * size_A r) (idx3 P (fun _ => P) (fun _ _ => P)) (evaluate_hex_d f P dofs ls0 ls1 ls2).
Proof.
  intros HL S0 S1 S2. unfold evaluate_hex_d. unfold modes_hex in HL. rewrite map_length in HL. set (y := fun '(r, q, p) => _ * modA r e2). set (m := fun '(r, q, p) => _ * size_A r).
  set (n1 := fun _ : nat => P) in *. set (n2 := fun _ _ : nat => P) in *. change (length (idx3 P n1 n2) <= length dofs)%nat in HL. pose proof (idx3_few n1 n2 P ltac:(lia) ltac:(auto) ltac:(auto)) as FW.
  apply (forr_inv P _ (fun r st => Sum y m (idx3 r n1 n2) st)); [exists 0; split; [reflexivity|apply acc_nil]|]. intros r st Hr HS. rewrite <- (pre3_end2 n1 n2). rewrite <- (pre3_00 n1 n2) in HS. cbv zeta.
  destruct (entry_A P e2 ls2 r) as (a2 & -> & N2); auto; [lia|]. cbn [bind]. pose proof (size_A_range r ltac:(lia)) as R2.
  apply (forr_inv (n1 r) _ (fun q st => Sum y m (pre3 n1 n2 r q 0) st)); [exact HS|]. clear st HS. intros q st Hq HS. unfold n1 in Hq.
  destruct (entry_A P e1 ls1 q) as (a1 & -> & N1); auto; [lia|]. cbn [bind]. pose proof (size_A_range q ltac:(lia)) as R1.
  destruct (md_mul _ _ _ _ _ _ _ _ _ _ N1 N2 ltac:(lia) R1 R2 ltac:(lia)) as (a12 & -> & N12). cbn [bind]. rewrite <- (pre3_end n1 n2).
  apply (forr_inv (n2 r q) _ (fun p st => Sum y m (pre3 n1 n2 r q p) st)); [exact HS|]. clear st HS. intros p st Hp (ev & -> & A). rewrite pre3_S. cbn [bind].
  pose proof (pre3_lt n1 n2 P r q p Hr Hq Hp) as LT. unfold n2 in Hp. destruct (dof_at (length (pre3 n1 n2 r q p)) _ HL LT) as (c & Ec & Nc). pose proof (hex_mode P ltac:(lia) r q p) as HM. change (length (pre3 n1 n2 r q p) = (p + (q * P + r * P * P))%nat) in HM. rewrite <- HM, Ec. cbn [bind].
  destruct (entry_A P e0 ls0 p) as (a0 & -> & N0); auto; [lia|]. cbn [bind]. pose proof (size_A_range p ltac:(lia)) as R0.
  destruct (c_mul c _ _ _ _ Nc N0 ltac:(lia) (range_le _ 100 550 ltac:(lia) R0)) as (t & -> & Nt). cbn [bind].
  eapply sum_step; [exact A|exact Nc|exact Ec|exact Nt|exact N12|lia|lia|cbn; ring|cbn; ring|].
  apply (range_le _ (100 + 100 + 100)); [lia|]. apply prod_range; [apply prod_range; auto|auto].
Qed.
Lemma prism_D f ls0 ls1 ls2 : (length (modes_prism P e0 e1 e2) <= length dofs)%nat -> space P ls0 (sized_A P e0) -> space P ls1 (sized_A P e1) -> space P ls2 (sized_B P e2) ->
  Sum (fun '(p, q, r) => (if Nat.eqb p 0 && Nat.eqb r 1 then 1 else modA p e0) * modA q e1 * modB p r e2) (fun '(p, q, r) => (if Nat.eqb p 0 && Nat.eqb r 1 then 1 else size_A p) * size_A q * size_B p r)
    (idx3 P (fun _ => P) (fun p _ => (P - p)%nat)) (evaluate_prism_d f P dofs ls0 ls1 ls2).
Proof.
  intros HL S0 S1 S2. unfold evaluate_prism_d. unfold modes_prism in HL. rewrite map_length in HL. set (y := fun '(p, q, r) => _ * modB p r e2). set (m := fun '(p, q, r) => _ * size_B p r).
  set (n1 := fun _ : nat => P) in *. set (n2 := fun p _ : nat => (P - p)%nat) in *. change (length (idx3 P n1 n2) <= length dofs)%nat in HL.
  pose proof (idx3_few n1 n2 P ltac:(lia) ltac:(auto) ltac:(unfold n2; lia)) as FW. set (nB := fun p => (P - p)%nat).
  match goal with |- Sum _ _ _ (bind (forr P ?b ?s) _) => assert (G : exists ev, forr P b s = Some (length (pre2 nB P 0), (length (idx3 P n1 n2), ev)) /\ Acc dofs _ y m K0 (idx3 P n1 n2) ev) end.
  2:{ destruct G as (ev & -> & A). exists ev. split; [reflexivity|exact A]. }
  apply (forr_inv P _ (fun p st => exists ev, st = Some (length (pre2 nB p 0), (length (idx3 p n1 n2), ev)) /\ Acc dofs _ y m K0 (idx3 p n1 n2) ev)); [exists 0; split; [reflexivity|apply acc_nil]|].
  intros p st Hp (ev0 & -> & A0). destruct (entry_A P e0 ls0 p) as (a0 & -> & N0); auto; [lia|]. cbn [bind]. pose proof (size_A_range p ltac:(lia)) as R0.
  match goal with |- context [forr P ?b ?s] => assert (G : Sum1 y m (pre3 n1 n2 p (n1 p) 0) (forr P b s)) end.
  2:{ destruct G as (ev & -> & A). rewrite (pre3_end2 n1 n2) in *. exists ev. split; [|exact A]. cbn [bind]. do 2 f_equal.
      rewrite !pre2_0, <- (pre2_end nB), pre2_length. rewrite <- (pre2_0 nB), pre2_length. unfold nB. lia. }
  apply (forr_inv P _ (fun q st => Sum1 y m (pre3 n1 n2 p q 0) st)); [exists ev0; rewrite (pre3_00 n1 n2); auto|]. clear ev0 A0. intros q st Hq HS. unfold n1 in Hq.
  destruct (entry_A P e1 ls1 q) as (a1 & -> & N1); auto; [lia|]. cbn [bind]. pose proof (size_A_range q ltac:(lia)) as R1. rewrite <- (pre3_end n1 n2).
  apply (forr_inv (n2 p q) _ (fun r st => Sum1 y m (pre3 n1 n2 p q r) st)); [exact HS|]. clear st HS. intros r st Hr (ev & -> & A). rewrite pre3_S. cbn [bind].
  pose proof (pre3_lt n1 n2 P p q r Hp Hq Hr) as LT. unfold n2 in Hr. destruct (entry_B P e2 ls2 p r) as (a2 & E2 & N2); auto; [lia|]. fold nB in E2.
  replace (length (pre2 nB p 0) + r)%nat with (length (pre2 nB p r)) by (rewrite !pre2_length; lia). rewrite E2. cbn [bind]. pose proof (size_B_range p r ltac:(lia)) as R2.
  assert (T : exists t, (if Nat.eqb p 0 && Nat.eqb r 1 then fl (a1 * a2) else do t <- fl (a0 * a1); fl (t * a2)) = Some t /\ nd (3 * K1 + 4) t (y (p, q, r)) (m (p, q, r))).
  { unfold y, m. destruct (_ && _).
    - destruct (md_mul _ _ _ _ _ _ _ _ _ _ N1 N2 ltac:(lia) R1 R2 ltac:(lia)) as (t & E & N). exists t. split; [exact E|]. rewrite !Rmult_1_l. eapply nd_le; [|exact N]. lia.
    - destruct (md_mul _ _ _ _ _ _ _ _ _ _ N0 N1 ltac:(lia) R0 R1 ltac:(lia)) as (t & -> & N). cbn [bind].
      destruct (md_mul _ _ _ _ _ _ _ _ _ _ N N2 ltac:(lia) (prod_range _ _ _ _ R0 R1) R2 ltac:(lia)) as (t' & E & N'). exists t'. split; [exact E|]. eapply nd_le; [|exact N']. lia. }
  destruct T as (t & -> & Nt). cbn [bind]. destruct (dof_at (length (pre3 n1 n2 p q r)) _ HL LT) as (c & Ec & Nc). rewrite Ec. cbn [bind].
  eapply sum1_step; [exact A|exact Nc|exact Ec|exact (nd_c c Nc)|exact Nt|lia|lia|reflexivity|reflexivity|]. unfold m. apply (range_le _ (100 + 100 + 217)); [lia|].
  apply prod_range; [apply prod_range; [|exact R1]|exact R2]. destruct (_ && _); [split; [lra|apply pow_R1_Rle; lra]|exact R0].
Qed.
Lemma tet_D f ls0 ls1 ls2 : (length (modes_tet P e0 e1 e2) <= length dofs)%nat -> space P ls0 (sized_A P e0) -> space P ls1 (sized_B P e1) -> space P ls2 (sized_C P e2) ->
  Sum (fun '(p, q, r) => (if Nat.eqb p 0 && (Nat.eqb q 1 || Nat.eqb q 0 && Nat.eqb r 1) then 1 else modA p e0) * (if Nat.eqb p 0 && Nat.eqb q 0 && Nat.eqb r 1 then 1 else modB p q e1) * modC p q r e2)
    (fun '(p, q, r) => (if Nat.eqb p 0 && (Nat.eqb q 1 || Nat.eqb q 0 && Nat.eqb r 1) then 1 else size_A p) * (if Nat.eqb p 0 && Nat.eqb q 0 && Nat.eqb r 1 then 1 else size_B p q) * size_B (p + q) r)
    (idx3 P (fun p => (P - p)%nat) (fun p q => (P - p - q)%nat)) (evaluate_tet_d f P dofs ls0 ls1 ls2).
Proof.
  intros HL S0 S1 S2. unfold evaluate_tet_d. unfold modes_tet in HL. rewrite map_length in HL. set (y := fun '(p, q, r) => _ * modC p q r e2). set (m := fun '(p, q, r) => _ * size_B (p + q) r).
  set (n1 := fun p => (P - p)%nat) in *. set (n2 := fun p q : nat => (P - p - q)%nat) in *. change (length (idx3 P n1 n2) <= length dofs)%nat in HL.
  pose proof (idx3_few n1 n2 P ltac:(lia) ltac:(unfold n1; lia) ltac:(unfold n2; lia)) as FW.
  set (Q := fun p q st => exists ev, st = Some (length (pre2 n1 p q), (length (pre3 n1 n2 p q 0), ev)) /\ Acc dofs _ y m K0 (pre3 n1 n2 p q 0) ev).
  match goal with |- Sum _ _ _ (bind (forr P ?b ?s) _) => assert (G : Q P 0%nat (forr P b s)) end.
  2:{ destruct G as (ev & -> & A). rewrite (pre3_00 n1 n2) in A. exists ev. split; [reflexivity|exact A]. }
  apply (forr_inv P _ (fun p st => Q p 0%nat st)); [exists 0; split; [reflexivity|apply acc_nil]|].
  intros p st Hp HS. destruct (entry_A P e0 ls0 p) as (a0 & -> & N0); auto; [lia|]. cbn [bind]. pose proof (size_A_range p ltac:(lia)) as R0.
  match goal with |- Q _ _ (forr ?n ?b ?s) => assert (G : Q p (n1 p) (forr n b s)) end.
  2:{ destruct G as (ev & -> & A). rewrite (pre3_end2 n1 n2) in A. exists ev. rewrite pre2_0, (pre3_00 n1 n2), <- (pre2_end n1), <- (pre3_end2 n1 n2) in *. auto. }
  apply (forr_inv (n1 p) _ (fun q st => Q p q st)); [exact HS|]. clear st HS. intros q st Hq (ev0 & -> & A0). cbn [bind]. assert (Hq' : (q < P - p)%nat) by exact Hq.
  destruct (entry_B P e1 ls1 p q) as (a1 & E1 & N1); auto; [unfold n1 in *; lia|]. fold n1 in E1. rewrite E1. cbn [bind]. pose proof (size_B_range p q ltac:(lia)) as R1.
  match goal with |- Q _ _ (bind (forr ?n ?b ?s) _) => assert (G : Sum1 y m (pre3 n1 n2 p q (n2 p q)) (forr n b s)) end.
  2:{ destruct G as (ev & -> & A). rewrite (pre3_end n1 n2) in *. cbn [bind]. exists ev. split; [|exact A]. do 3 f_equal. rewrite !pre2_length. lia. }
  apply (forr_inv (n2 p q) _ (fun r st => Sum1 y m (pre3 n1 n2 p q r) st)); [exists ev0; auto|]. clear ev0 A0. intros r st Hr (ev & -> & A). rewrite pre3_S. cbn [bind]. assert (Hr' : (r < P - p - q)%nat) by exact Hr.
  pose proof (pre3_lt n1 n2 P p q r Hp Hq Hr) as LT. destruct (entry_C P e2 ls2 p q r) as (a2 & E2 & N2); auto; [lia|]. fold n1 n2 in E2.
  change (pre3 (fun p => (P - p)%nat) n2) with (pre3 n1 n2) in E2. rewrite E2. cbn [bind]. pose proof (size_B_range (p + q) r ltac:(lia)) as R2.
  destruct (dof_at (length (pre3 n1 n2 p q r)) _ HL LT) as (c & Ec & Nc). rewrite Ec. cbn [bind].
  pose proof (mode1_3 P n1 n2 p q r ltac:(lia) ltac:(unfold n2; lia) ltac:(unfold n1; intros; lia) Hp Hq Hr) as M1. rewrite M1.
  assert (M : 1 <= m (p, q, r) <= 2 ^ 550).
  { unfold m. apply (range_le _ (100 + 217 + 217)); [lia|]. assert (O : forall i, 1 <= 1 <= 2 ^ i) by (intros; split; [lra|apply pow_R1_Rle; lra]).
    apply prod_range; [apply prod_range|exact R2]; match goal with |- context [if ?b then _ else _] => destruct b end; auto. }
  assert (AY : y (p, q, r) = (if Nat.eqb p 0 && (Nat.eqb q 1 || Nat.eqb q 0 && Nat.eqb r 1) then 1 else modA p e0) * (if Nat.eqb p 0 && Nat.eqb q 0 && Nat.eqb r 1 then 1 else modB p q e1) * modC p q r e2) by reflexivity.
  assert (AM : m (p, q, r) = (if Nat.eqb p 0 && (Nat.eqb q 1 || Nat.eqb q 0 && Nat.eqb r 1) then 1 else size_A p) * (if Nat.eqb p 0 && Nat.eqb q 0 && Nat.eqb r 1 then 1 else size_B p q) * size_B (p + q) r) by reflexivity.
  destruct (Nat.eqb p 0) eqn:Ep; cbn [andb] in *; [destruct (Nat.eqb q 0) eqn:Eq|]; cbn [andb orb] in *.
  - assert (Eq1 : Nat.eqb q 1 = false) by (apply Nat.eqb_eq in Eq; subst q; reflexivity). rewrite Eq1 in *. cbn [orb] in *. destruct (Nat.eqb r 1) eqn:Er.
    + eapply sum1_step; [exact A|exact Nc|exact Ec|exact (nd_c c Nc)|exact N2|lia|lia|rewrite AY; ring|rewrite AM; ring|exact M].
    + destruct (c_mul c _ _ _ _ Nc N0 ltac:(lia) (range_le _ 100 550 ltac:(lia) R0)) as (t & -> & Nt). cbn [bind].
      destruct (nf_mul _ _ _ _ _ _ _ _ Nt N1) as (t' & -> & Nt'); [rewrite Rmult_assoc; destruct (range_le _ (100 + 217) 550 ltac:(lia) (prod_range _ _ _ _ R0 R1)); apply okm_c; auto|unfold few; lia|]. cbn [bind].
      eapply sum1_step; [exact A|exact Nc|exact Ec|exact Nt'|exact N2|lia|lia|rewrite AY; ring|rewrite AM; ring|exact M].
  - destruct (Nat.eqb q 1) eqn:Eq1; cbn [orb] in *.
    + destruct (c_mul c _ _ _ _ Nc N1 ltac:(lia) (range_le _ 217 550 ltac:(lia) R1)) as (t & -> & Nt). cbn [bind].
      eapply sum1_step; [exact A|exact Nc|exact Ec|exact Nt|exact N2|lia|lia|rewrite AY; ring|rewrite AM; ring|exact M].
    + destruct (c_mul c _ _ _ _ Nc N0 ltac:(lia) (range_le _ 100 550 ltac:(lia) R0)) as (t & -> & Nt). cbn [bind].
      destruct (nf_mul _ _ _ _ _ _ _ _ Nt N1) as (t' & -> & Nt'); [rewrite Rmult_assoc; destruct (range_le _ (100 + 217) 550 ltac:(lia) (prod_range _ _ _ _ R0 R1)); apply okm_c; auto|unfold few; lia|]. cbn [bind].
      eapply sum1_step; [exact A|exact Nc|exact Ec|exact Nt'|exact N2|lia|lia|rewrite AY; ring|rewrite AM; ring|exact M].
  - destruct (c_mul c _ _ _ _ Nc N0 ltac:(lia) (range_le _ 100 550 ltac:(lia) R0)) as (t & -> & Nt). cbn [bind].
    destruct (nf_mul _ _ _ _ _ _ _ _ Nt N1) as (t' & -> & Nt'); [rewrite Rmult_assoc; destruct (range_le _ (100 + 217) 550 ltac:(lia) (prod_range _ _ _ _ R0 R1)); apply okm_c; auto|unfold few; lia|]. cbn [bind].
    eapply sum1_step; [exact A|exact Nc|exact Ec|exact Nt'|exact N2|lia|lia|rewrite AY; ring|rewrite AM; ring|exact M].
Qed.
End Shapes.
