(** C116: the deposition of particle values onto the coefficients of a continuous field in double precision. Model: M_ProjectD, M_BasisD.
    Specification: S_ProjectD, S_EvalD, S_BasisD, S_Basis. *)
From Flocq Require Import Core.
From Verif Require Import P_SumD M_RealBase L_RealBase M_Loop L_Loop M_Grid M_Double S_Double L_Double L_Double2 M_BorisD L_SumD L_CoordD L_BaryD S_BaryD P_Double S_Jacobi L_Jacobi L_Basis1 S_Basis L_Basis3 M_BasisD S_BasisD L_BasisD L_BasisD2 L_BasisD3 P_BasisD M_EvalD S_EvalD L_EvalD L_EvalD2 M_ProjectD S_ProjectD L_ProjectD.
From Coq Require Import Reals Lra Lia ZArith Bool Arith Permutation List.
Import ListNotations.
Open Scope R_scope.

Lemma contribution_error_eq P : 2 * INR (3 * (28 * P + 64) + 8) * u = contribution_error P.
Proof.
  unfold contribution_error. rewrite u_eq. rewrite !plus_INR, !mult_INR, plus_INR, mult_INR.
  replace (INR 3) with 3 by (rewrite INR_IZR_INZ; reflexivity). replace (INR 28) with 28 by (rewrite INR_IZR_INZ; reflexivity). replace (INR 64) with 64 by (rewrite INR_IZR_INZ; reflexivity).
  replace (INR 8) with 8 by (rewrite INR_IZR_INZ; reflexivity). ring.
Qed.
Lemma Cons_within P v (I : Type) (y m : I -> R) l st : (2 <= P <= 32)%nat -> Cons P v y m l st -> contributions_within P v st (map y l) (map m l).
Proof.
  intros HP (a & -> & A & B). exists a. split; [auto|]. split; [rewrite map_length; auto|]. clear A. revert B. generalize (map snd a). clear a. induction l as [|i l IH]; intros es B; inversion B as [|e0 i0 es0 l0 Hn Hr]; subst; [constructor|].
  cbn [map combine]. constructor; [|apply IH; auto]. cbn [fst snd]. rewrite <- contribution_error_eq. cbv beta in Hn. destruct Hn as [D N]. split; [exact D|]. apply nf_within; [split; auto|unfold few; lia].
Qed.
(** One particle, from the arrays of local modes, any that are as close as C114 shows. *)
Section Loops.
Context (P : nat) (HP : (2 <= P <= 32)%nat) (e0 e1 e2 : R) (C0 : coordinate e0) (C1 : coordinate e1) (C2 : coordinate e2).
Context (value : R) (HV : nodal value) (ls0 ls1 ls2 : list (option R)).
Theorem C116_loop_quad : space P ls0 (sized_A P e0) -> space P ls1 (sized_A P e1) ->
  contributions_within P value (project_quad_d P value ls0 ls1) (modes_quad P e0 e1) (sizes_quad P).
Proof. intros. apply Cons_within; [auto|]. eapply quad_P; eauto. Qed.
Theorem C116_loop_tri : space P ls0 (sized_A P e0) -> space P ls1 (sized_B P e1) ->
  contributions_within P value (project_tri_d P value ls0 ls1) (modes_tri P e0 e1) (sizes_tri P).
Proof. intros. apply Cons_within; [auto|]. eapply tri_P; eauto. Qed.
Theorem C116_loop_hex : space P ls0 (sized_A P e0) -> space P ls1 (sized_A P e1) -> space P ls2 (sized_A P e2) ->
  contributions_within P value (project_hex_d P value ls0 ls1 ls2) (modes_hex P e0 e1 e2) (sizes_hex P).
Proof. intros. apply Cons_within; [auto|]. eapply hex_P; eauto. Qed.
Theorem C116_loop_prism : space P ls0 (sized_A P e0) -> space P ls1 (sized_A P e1) -> space P ls2 (sized_B P e2) ->
  contributions_within P value (project_prism_d P value ls0 ls1 ls2) (modes_prism P e0 e1 e2) (sizes_prism P).
Proof. intros. apply Cons_within; [auto|]. eapply prism_P; eauto. Qed.
Theorem C116_loop_tet : space P ls0 (sized_A P e0) -> space P ls1 (sized_B P e1) -> space P ls2 (sized_C P e2) ->
  contributions_within P value (project_tet_d P value ls0 ls1 ls2) (modes_tet P e0 e1 e2) (sizes_tet P).
Proof. intros. apply Cons_within; [auto|]. eapply tet_P; eauto. Qed.
End Loops.
(** One particle at the collapsed coordinates [e0], [e1], [e2], with the modes computed by the kernels of C114. *)
Theorem C116_quad F0 F1 max_n max_alpha P value e0 e1 : (2 <= P <= 32)%nat -> (P <= max_n + 2)%nat -> (1 <= max_alpha)%nat -> coordinate e0 -> coordinate e1 -> nodal value ->
  let T := make_table_d max_n max_alpha in
  contributions_within P value (project_quad_d P value (mod_A_d F0 T P e0) (mod_A_d F1 T P e1)) (modes_quad P e0 e1) (sizes_quad P).
Proof. intros HP HT HA C0 C1 HV T. apply C116_loop_quad; auto; apply C114_mod_A; auto; lia. Qed.
Theorem C116_tri F0 F1 max_n max_alpha P value e0 e1 : (2 <= P <= 32)%nat -> (P <= max_n + 2)%nat -> (1 <= max_alpha)%nat -> (2 * P <= max_alpha + 3)%nat -> coordinate e0 -> coordinate e1 -> e1 < 1 -> nodal value ->
  let T := make_table_d max_n max_alpha in
  contributions_within P value (project_tri_d P value (mod_A_d F0 T P e0) (mod_B_d F1 T P e1)) (modes_tri P e0 e1) (sizes_tri P).
Proof. intros HP HT HA HB C0 C1 L HV T. apply C116_loop_tri; auto; [apply C114_mod_A|apply C114_mod_B]; auto; lia. Qed.
Theorem C116_hex F0 F1 F2 max_n max_alpha P value e0 e1 e2 : (2 <= P <= 32)%nat -> (P <= max_n + 2)%nat -> (1 <= max_alpha)%nat -> coordinate e0 -> coordinate e1 -> coordinate e2 -> nodal value ->
  let T := make_table_d max_n max_alpha in
  contributions_within P value (project_hex_d P value (mod_A_d F0 T P e0) (mod_A_d F1 T P e1) (mod_A_d F2 T P e2)) (modes_hex P e0 e1 e2) (sizes_hex P).
Proof. intros HP HT HA C0 C1 C2 HV T. apply C116_loop_hex; auto; apply C114_mod_A; auto; lia. Qed.
Theorem C116_prism F0 F1 F2 max_n max_alpha P value e0 e1 e2 : (2 <= P <= 32)%nat -> (P <= max_n + 2)%nat -> (1 <= max_alpha)%nat -> (2 * P <= max_alpha + 3)%nat -> coordinate e0 -> coordinate e1 -> coordinate e2 -> e2 < 1 -> nodal value ->
  let T := make_table_d max_n max_alpha in
  contributions_within P value (project_prism_d P value (mod_A_d F0 T P e0) (mod_A_d F1 T P e1) (mod_B_d F2 T P e2)) (modes_prism P e0 e1 e2) (sizes_prism P).
Proof. intros HP HT HA HB C0 C1 C2 L HV T. apply C116_loop_prism; auto; try apply C114_mod_A; try apply C114_mod_B; auto; lia. Qed.
Theorem C116_tet F0 F1 F2 max_n max_alpha P value e0 e1 e2 : (2 <= P <= 32)%nat -> (P <= max_n + 2)%nat -> (1 <= max_alpha)%nat -> (2 * P <= max_alpha + 3)%nat -> coordinate e0 -> coordinate e1 -> coordinate e2 -> e1 < 1 -> e2 < 1 -> nodal value ->
  let T := make_table_d max_n max_alpha in
  contributions_within P value (project_tet_d P value (mod_A_d F0 T P e0) (mod_B_d F1 T P e1) (mod_C_d F2 T P e2)) (modes_tet P e0 e1 e2) (sizes_tet P).
Proof. intros HP HT HA HB C0 C1 C2 L1 L2 HV T. apply C116_loop_tet; auto; [apply C114_mod_A|apply C114_mod_B|apply C114_mod_C]; auto; lia. Qed.
(** The size of a mode is at least 1, bounds the mode, and cannot overflow. *)
Lemma in2 P n1 p q : In (p, q) (idx2 P n1) -> (p < P)%nat /\ (q < n1 p)%nat.
Proof. unfold idx2. intros H. apply in_flat_map in H. destruct H as (i & Hi & H). apply in_map_iff in H. destruct H as (j & E & Hj). inversion E; subst. apply in_seq in Hi, Hj. lia. Qed.
Lemma in3 P n1 n2 p q r : In (p, q, r) (idx3 P n1 n2) -> (p < P)%nat /\ (q < n1 p)%nat /\ (r < n2 p q)%nat.
Proof.
  unfold idx3. intros H. apply in_flat_map in H. destruct H as (i & Hi & H). apply in_flat_map in H. destruct H as (j & Hj & H). apply in_map_iff in H. destruct H as (k & E & Hk). inversion E; subst.
  apply in_seq in Hi, Hj, Hk. lia.
Qed.
Lemma sized_map {I} (y m : I -> R) l : (forall i, In i l -> Rabs (y i) <= m i /\ 1 <= m i <= 2 ^ 550) -> sized_modes (map y l) (map m l).
Proof. induction l as [|i l IH]; intros H; cbn [map]; constructor; [apply H; left; auto|apply IH; intros; apply H; right; auto]. Qed.
Lemma abs_prod a b s t : Rabs a <= s -> Rabs b <= t -> Rabs (a * b) <= s * t.
Proof. intros. rewrite Rabs_mult. pose proof (Rabs_pos a). pose proof (Rabs_pos b). apply Rmult_le_compat; auto. Qed.
Definition fits (i : nat) (y s : R) : Prop := Rabs y <= s /\ 1 <= s <= 2 ^ i.
Lemma fits_mul i j a b s t : fits i a s -> fits j b t -> fits (i + j) (a * b) (s * t).
Proof. intros [A A'] [B B']. split; [apply abs_prod; auto|apply prod_range; auto]. Qed.
Lemma fits_1 i : fits i 1 1. Proof. split; [rewrite Rabs_R1; lra|split; [lra|apply pow_R1_Rle; lra]]. Qed.
Lemma fits_if (c : bool) i y s : fits i y s -> fits i (if c then 1 else y) (if c then 1 else s). Proof. destruct c; [intros; apply fits_1|auto]. Qed.
Lemma fits_end i y s : fits i y s -> (i <= 550)%nat -> Rabs y <= s /\ 1 <= s <= 2 ^ 550. Proof. intros [A B] H. split; [auto|eapply range_le; eauto]. Qed.
Lemma fits_A p z : coordinate z -> (p < 32)%nat -> fits 100 (modA p z) (size_A p).
Proof. intros [_ H] L. split; [apply modA_size; auto|apply size_A_range; auto]. Qed.
Lemma fits_B p q z : coordinate z -> (p + q < 32)%nat -> fits 217 (modB p q z) (size_B p q).
Proof. intros [_ H] L. split; [apply modB_size; auto|apply size_B_range; auto]. Qed.
Lemma fits_C p q r z : coordinate z -> (p + q + r < 32)%nat -> fits 217 (modC p q r z) (size_B (p + q) r).
Proof. intros C L. apply (fits_B (p + q) r z C). lia. Qed.
Theorem C116_sizes P e0 e1 e2 : (P <= 32)%nat -> coordinate e0 -> coordinate e1 -> coordinate e2 ->
  sized_modes (modes_quad P e0 e1) (sizes_quad P) /\ sized_modes (modes_tri P e0 e1) (sizes_tri P) /\ sized_modes (modes_hex P e0 e1 e2) (sizes_hex P) /\
  sized_modes (modes_prism P e0 e1 e2) (sizes_prism P) /\ sized_modes (modes_tet P e0 e1 e2) (sizes_tet P).
Proof.
  intros HP C0 C1 C2. repeat split; apply sized_map.
  - intros [q p] H. apply in2 in H. apply (fits_end (100 + 100)); [apply fits_mul; apply fits_A; auto; lia|lia].
  - intros [p q] H. apply in2 in H. apply (fits_end (100 + 217)); [apply fits_mul; [apply fits_if, fits_A|apply fits_B]; auto; lia|lia].
  - intros [[r q] p] H. apply in3 in H. apply (fits_end (100 + 100 + 100)); [repeat apply fits_mul; apply fits_A; auto; lia|lia].
  - intros [[p q] r] H. apply in3 in H. apply (fits_end (100 + 100 + 217)); [apply fits_mul; [apply fits_mul; [apply fits_if|]; apply fits_A|apply fits_B]; auto; lia|lia].
  - intros [[p q] r] H. apply in3 in H. apply (fits_end (100 + 217 + 217)); [apply fits_mul; [apply fits_mul; apply fits_if; [apply fits_A|apply fits_B]|apply fits_C]; auto; lia|lia].
Qed.
(** The coefficient [k] after all the atomic additions of all the particles, in any order. *)
Lemma pick k : forall (l : list (nat * R)) a n, map fst l = seq a n -> (a <= k < a + n)%nat -> map snd (filter (fun c => Nat.eqb (fst c) k) l) = [nth (k - a) (map snd l) 0].
Proof.
  assert (Z : forall (l : list (nat * R)) a n, map fst l = seq a n -> (k < a)%nat -> filter (fun c => Nat.eqb (fst c) k) l = []).
  { intros l. induction l as [|[i x] l IH]; intros a n E H; [reflexivity|]. destruct n; [discriminate|]. cbn in E. inversion E; subst. cbn [filter fst].
    destruct (Nat.eqb_spec a k); [lia|]. apply (IH (S a) n); auto. }
  intros l. induction l as [|[i x] l IH]; intros a n E H; [destruct n; [lia|discriminate]|]. destruct n; [lia|]. cbn in E. inversion E; subst. cbn [filter fst].
  destruct (Nat.eqb_spec a k).
  - subst. rewrite (Z l (S k) n) by (auto; lia). rewrite Nat.sub_diag. reflexivity.
  - rewrite (IH (S a) n) by (auto; lia). replace (k - a)%nat with (S (k - S a)) by lia. reflexivity.
Qed.
Lemma one_add P k d n : (P <= 32)%nat -> good P n d -> (k < n)%nat ->
  exists e, adds_to k [d_computed d] = [e] /\ nd (168 * P + 400) e (d_value d * nth k (d_modes d) 0) (Rabs (d_value d) * nth k (d_sizes d) 0) /\ 1 <= nth k (d_sizes d) 0 <= 2 ^ 550.
Proof.
  intros HP (HV & (l & El & Ef & F) & S & HL) Hk. inversion El; subst l. unfold adds_to. cbn [concat]. rewrite app_nil_r. rewrite (pick k _ 0 _ Ef) by lia. rewrite Nat.sub_0_r.
  eexists. split; [reflexivity|]. unfold sized_modes in S. assert (LS : length (d_modes d) = length (d_sizes d)) by (clear - S; induction S; cbn; auto). rewrite HL in LS.
  assert (X : forall ys ss, Forall2 (fun y s => Rabs y <= s /\ 1 <= s <= 2 ^ 550) ys ss -> forall j, (j < length ys)%nat -> Rabs (nth j ys 0) <= nth j ss 0 /\ 1 <= nth j ss 0 <= 2 ^ 550).
  { intros ys ss H. induction H; intros j Hj; [cbn in Hj; lia|]. destruct j; [auto|]. apply IHForall2. cbn in Hj. lia. }
  destruct (X _ _ S k ltac:(lia)) as [Hy Hs]. split; [|auto].
  assert (Y : forall es ys ss, length ys = length ss -> Forall2 (fun e ms => is_double e /\ Rabs (e - d_value d * fst ms) <= contribution_error P * (Rabs (d_value d) * snd ms)) es (combine ys ss) ->
    forall j, (j < length ys)%nat -> is_double (nth j es 0) /\ Rabs (nth j es 0 - d_value d * nth j ys 0) <= contribution_error P * (Rabs (d_value d) * nth j ss 0)).
  { induction es as [|e es IH]; intros [|y ys] [|s ss] E H j Hj; cbn in *; try lia; inversion H; subst. destruct j; [cbn in *; auto|]. apply IH; auto; lia. }
  destruct (Y _ (d_modes d) (d_sizes d) ltac:(lia) F k ltac:(lia)) as [D E]. split; [auto|].
  pose proof (Rabs_pos (d_value d)) as V0. split; [apply g_ge1|]. split; [rewrite Rabs_mult; apply Rmult_le_compat_l; auto|].
  eapply Rle_trans; [exact E|]. apply Rmult_le_compat_r; [apply Rmult_le_pos; lra|]. unfold contribution_error. rewrite u_eq.
  assert (G : forall K, 1 + INR K * u <= g K). { pose proof u_pos. induction K as [|K IH]; [cbn; lra|]. rewrite g_S, S_INR. pose proof (g_ge1 K). pose proof (Rmult_le_pos u (g K - 1)). lra. }
  specialize (G (168 * P + 400)%nat). rewrite plus_INR, mult_INR in G. replace (INR 168) with 168 in G by (rewrite INR_IZR_INZ; reflexivity). replace (INR 400) with 400 in G by (rewrite INR_IZR_INZ; reflexivity). lra.
Qed.
(** sums of terms that are close *)
Lemma sum_terms K : forall (l : list (R * (R * R))), (forall e y m, In (e, (y, m)) l -> nd K e y m /\ small_or m /\ m <= 2 ^ 750) -> (Z.of_nat (K + 2 * length l) <= 262144)%Z ->
  exists c, deposited_d (map fst l) = Some c /\ nd (K + 2 * length l) c (sum_of (map (fun t => fst (snd t)) l)) (sum_of (map (fun t => snd (snd t)) l)) /\
    small_or (sum_of (map (fun t => snd (snd t)) l)) /\ sum_of (map (fun t => snd (snd t)) l) <= INR (length l) * 2 ^ 750.
Proof.
  assert (SA : forall l x, sum_of (l ++ [x]) = sum_of l + x) by (induction l as [|a l IH]; intros x; cbn [app sum_of]; [ring|rewrite IH; ring]).
  intros l. induction l as [|[e [y m]] l IH] using rev_ind; intros H HK.
  - exists 0. cbn. split; [reflexivity|]. split; [|split; [left; reflexivity|lra]]. eapply nd_le; [|apply nd_exact; [apply dbl_0|rewrite Rabs_R0; lra]]. lia.
  - rewrite app_length in HK. cbn [length] in HK. destruct IH as (c & Ec & Nc & Sc & Uc); [intros; apply H; apply in_or_app; auto|lia|].
    destruct (H e y m) as (Ne & Se & Ue); [apply in_or_app; right; left; auto|]. rewrite !map_app. cbn [map fst snd]. rewrite !SA.
    unfold deposited_d. rewrite fold_left_app. fold (deposited_d (map fst l)). rewrite Ec. cbn [fold_left bind]. rewrite app_length. cbn [length].
    pose proof (nd_pos _ _ _ _ Nc) as p1. pose proof (nd_pos _ _ _ _ Ne) as p2. pose proof (small_sum _ _ p1 p2 Sc Se) as SS.
    assert (U : sum_of (map (fun t => snd (snd t)) l) + m <= INR (length l + 1) * 2 ^ 750) by (rewrite plus_INR; cbn [INR]; lra).
    destruct (rnd_nf (K + 2 * length l) (c + e) (sum_of (map (fun t => fst (snd t)) l) + y) (sum_of (map (fun t => snd (snd t)) l) + m)) as (r & Er & Nr).
    + apply near_add; [apply Nc|]. eapply near_le; [|apply Ne]. apply g_mono. lia.
    + split; [auto|]. eapply Rle_trans; [exact U|]. apply Rle_trans with (2 ^ 20 * 2 ^ 750).
      * apply Rmult_le_compat_r; [apply pow_le; lra|]. assert (HZ : (Z.of_nat (length l + 1) <= 1048576)%Z) by lia. apply IZR_le in HZ. rewrite <- INR_IZR_INZ in HZ. cbn [pow]. lra.
      * rewrite <- pow_add. apply Rle_pow; [lra|lia].
    + unfold few. lia.
    + exists r. split; [auto|]. split; [|auto]. replace (K + 2 * (length l + 1))%nat with (K + 2 * length l + 2)%nat by lia. exact Nr.
Qed.
Lemma sum_perm l l' : Permutation l l' -> sum_of l = sum_of l'.
Proof. induction 1; cbn [sum_of]; lra. Qed.
Theorem C116_coefficient P n k (parts : list deposit) order : (P <= 32)%nat -> (Z.of_nat (length parts) <= 100000)%Z -> (k < n)%nat -> Forall (good P n) parts ->
  Permutation order (adds_to k (map d_computed parts)) ->
  exists c, deposited_d order = Some c /\ is_double c /\
    Rabs (c - sum_of (map (fun d => d_value d * nth k (d_modes d) 0) parts)) <= deposit_error P (length parts) * sum_of (map (fun d => Rabs (d_value d) * nth k (d_sizes d) 0) parts).
Proof.
  intros HP HL Hk HG Hperm.
  assert (G : exists l, map fst l = adds_to k (map d_computed parts) /\ length l = length parts /\ map (fun t => fst (snd t)) l = map (fun d => d_value d * nth k (d_modes d) 0) parts /\
    map (fun t => snd (snd t)) l = map (fun d => Rabs (d_value d) * nth k (d_sizes d) 0) parts /\ forall e y m, In (e, (y, m)) l -> nd (168 * P + 400) e y m /\ small_or m /\ m <= 2 ^ 750).
  { clear Hperm HL. induction HG as [|d parts Hd HG IH]; [exists []; repeat split; auto; cbn; tauto|]. destruct IH as (l & L1 & L2 & L3 & L4 & L5). destruct (one_add P k d n HP Hd Hk) as (e & Ee & Ne & Re).
    exists ((e, (d_value d * nth k (d_modes d) 0, Rabs (d_value d) * nth k (d_sizes d) 0)) :: l). cbn [map fst snd length]. rewrite L1, L2, L3, L4. split; [|split; [|split; [|split]]]; auto.
    - unfold adds_to in *. cbn [map concat]. rewrite filter_app, map_app. cbn [concat] in Ee. rewrite app_nil_r in Ee. rewrite Ee. reflexivity.
    - intros e' y' m' [E|H]; [|auto]. inversion E; subst. split; [auto|]. destruct Hd as [HV _]. destruct (okc _ _ HV (proj1 Re) (proj2 Re)) as [A B]. split; [auto|lra]. }
  destruct G as (l & L1 & L2 & L3 & L4 & L5). rewrite <- L1 in Hperm. apply Permutation_map_inv in Hperm. destruct Hperm as (l' & -> & HP').
  assert (LL : length l' = length parts) by (rewrite <- L2; apply Permutation_length, Permutation_sym, HP').
  destruct (sum_terms (168 * P + 400) l') as (c & Ec & Nc & _).
  { intros e y m H. apply L5. eapply Permutation_in; [apply Permutation_sym; exact HP'|exact H]. } { lia. }
  exists c. split; [auto|]. split; [apply Nc|]. rewrite <- L3, <- L4.
  rewrite (sum_perm _ _ (Permutation_map (fun t => fst (snd t)) HP')), (sum_perm _ _ (Permutation_map (fun t => snd (snd t)) HP')).
  eapply Rle_trans; [apply nf_within; [exact Nc|unfold few; lia]|]. apply Req_le. f_equal. unfold deposit_error. rewrite u_eq, LL, !plus_INR, !mult_INR.
  replace (INR 168) with 168 by (rewrite INR_IZR_INZ; reflexivity). replace (INR 400) with 400 by (rewrite INR_IZR_INZ; reflexivity). cbn [INR]. ring.
Qed.
(** Every particle deposited by one of the loops above is one of those. *)
Theorem C116_deposits P value e0 e1 e2 l : (P <= 32)%nat -> coordinate e0 -> coordinate e1 -> coordinate e2 -> nodal value ->
  (contributions_within P value (Some l) (modes_quad P e0 e1) (sizes_quad P) -> good P (length (sizes_quad P)) {| d_value := value; d_computed := l; d_modes := modes_quad P e0 e1; d_sizes := sizes_quad P |}) /\
  (contributions_within P value (Some l) (modes_tri P e0 e1) (sizes_tri P) -> good P (length (sizes_tri P)) {| d_value := value; d_computed := l; d_modes := modes_tri P e0 e1; d_sizes := sizes_tri P |}) /\
  (contributions_within P value (Some l) (modes_hex P e0 e1 e2) (sizes_hex P) -> good P (length (sizes_hex P)) {| d_value := value; d_computed := l; d_modes := modes_hex P e0 e1 e2; d_sizes := sizes_hex P |}) /\
  (contributions_within P value (Some l) (modes_prism P e0 e1 e2) (sizes_prism P) -> good P (length (sizes_prism P)) {| d_value := value; d_computed := l; d_modes := modes_prism P e0 e1 e2; d_sizes := sizes_prism P |}) /\
  (contributions_within P value (Some l) (modes_tet P e0 e1 e2) (sizes_tet P) -> good P (length (sizes_tet P)) {| d_value := value; d_computed := l; d_modes := modes_tet P e0 e1 e2; d_sizes := sizes_tet P |}).
Proof.
  intros HP C0 C1 C2 HV. destruct (C116_sizes P e0 e1 e2 HP C0 C1 C2) as (A & B & C & D & E).
  assert (L : forall (I : Type) (y m : I -> R) l, length (map y l) = length (map m l)) by (intros; rewrite !map_length; auto).
  split; [|split; [|split; [|split]]]; intros H; (split; [exact HV|split; [exact H|split; [assumption|apply L]]]).
Qed.
Print Assumptions C116_quad.
Print Assumptions C116_tri.
Print Assumptions C116_hex.
Print Assumptions C116_prism.
Print Assumptions C116_tet.
Print Assumptions C116_sizes.
Print Assumptions C116_coefficient.

(** The order of the additions changes the result: the same three particles at a corner of a quadrilateral, in two orders. *)
Lemma corner F0 F1 v : is_double v -> let ls F := mod_A_d F (make_table_d 0 1) 2 (-1) in
  project_quad_d 2 v (ls F0) (ls F1) = Some [(0%nat, v); (1%nat, 0); (2%nat, 0); (3%nat, 0)].
Proof.
  intros D ls. assert (E : forall F, ls F = [Some 1; Some 0]) by (intros F; unfold ls; rewrite (proj1 (C114_ends F 0 1 2 ltac:(lia) ltac:(lia) ltac:(lia))); reflexivity). rewrite !E.
  pose proof (fl_to (v * 1) v D ltac:(ring)) as A1. pose proof (fl_to (v * 0) 0 dbl_0 ltac:(ring)) as A0. pose proof (fl_to (0 * 1) 0 dbl_0 ltac:(ring)) as B1. pose proof (fl_to (0 * 0) 0 dbl_0 ltac:(ring)) as B0.
  unfold project_quad_d, forr. cbn [seq fold_left]. unfold entry. repeat (cbn [nth_error bind Nat.mul Nat.add app]; rewrite ?A1, ?A0, ?B1, ?B0). reflexivity.
Qed.
Definition corner_deposit (v : R) : deposit := {| d_value := v; d_computed := [(0%nat, v); (1%nat, 0); (2%nat, 0); (3%nat, 0)]; d_modes := modes_quad 2 (-1) (-1); d_sizes := sizes_quad 2 |}.
Lemma corner_good v : nodal v -> good 2 4 (corner_deposit v).
Proof.
  intros HV. assert (C : coordinate (-1)) by (split; [apply (dbl_Z (-1)); lia|lra]). split; [auto|]. split; [|split; [|reflexivity]].
  - cbn [d_value d_computed d_modes d_sizes corner_deposit]. rewrite <- (corner (fun _ => (None, true)) (fun _ => (Some true, false)) v) by apply HV. apply C116_quad; auto; lia.
  - destruct (C116_sizes 2 (-1) (-1) (-1)) as (A & _); auto; lia.
Qed.
Theorem C116_order_refuted : exists parts order order' c c', Forall (good 2 4) parts /\ Permutation order (adds_to 0 (map d_computed parts)) /\ Permutation order' (adds_to 0 (map d_computed parts)) /\
  deposited_d order = Some c /\ deposited_d order' = Some c' /\ c < c'.
Proof.
  set (a := 3 / 36028797018963968). exists [corner_deposit 1; corner_deposit a; corner_deposit a], [1; a; a], [a; a; 1], 1, (1 + / 4503599627370496).
  assert (P : / 2 ^ 200 <= / 2 ^ 60 /\ 1 <= 2 ^ 200) by (split; [apply pw; lia|apply pow_R1_Rle; lra]).
  assert (Q : / 2 ^ 60 <= a <= 1) by (unfold a; cbn; lra).
  assert (N1 : nodal 1) by (split; [apply (dbl_Z 1); lia|right; rewrite Rabs_R1; lra]).
  assert (Na : nodal a) by (split; [unfold a; dbl 3%Z (-55)%Z|right; rewrite Rabs_pos_eq by lra; lra]).
  split; [constructor; [|constructor; [|constructor; [|constructor]]]; apply corner_good; auto|]. split; [apply Permutation_refl|]. split; [cbn; apply (Permutation_trans (l' := [a; 1; a])); [apply perm_skip, perm_swap|apply perm_swap]|].
  unfold deposited_d. cbn [fold_left bind]. split; [|split; [|lra]].
  - unfold a. fl_ex 1%Z 0%Z 1. fl_to 4503599627370496%Z (-52)%Z 1. fl_to 4503599627370496%Z (-52)%Z 1. reflexivity.
  - unfold a. fl_ex 3%Z (-55)%Z (3 / 36028797018963968). fl_ex 6%Z (-55)%Z (6 / 36028797018963968). fl_to 4503599627370497%Z (-52)%Z (1 + / 4503599627370496). reflexivity.
Qed.
Print Assumptions C116_order_refuted.
Example C116_applied : let parts := [corner_deposit 1; corner_deposit (-3)] in Forall (good 2 4) parts /\ adds_to 0 (map d_computed parts) = [1; -3] /\
  sum_of (map (fun d => d_value d * nth 0 (d_modes d) 0) parts) = -2 /\
  (exists c, deposited_d [-3; 1] = Some c /\ is_double c /\ Rabs (c - -2) <= / 2 ^ 40).
Proof.
  intros parts. assert (B : 3 <= 2 ^ 200) by (apply Rle_trans with (2 ^ 2); [cbn; lra|apply Rle_pow; [lra|lia]]). assert (A : / 2 ^ 200 <= / 2 ^ 0) by (apply pw; lia). cbn [pow] in A.
  assert (G : Forall (good 2 4) parts).
  { constructor; [|constructor; [|constructor]]; apply corner_good; (split; [|right]); [apply (dbl_Z 1); lia|rewrite Rabs_R1; lra|apply (dbl_Z (-3)); lia|rewrite Rabs_left by lra; lra]. }
  split; [auto|]. split; [reflexivity|]. assert (E : sum_of (map (fun d => d_value d * nth 0 (d_modes d) 0) parts) = -2) by (cbn; lra). split; [auto|].
  destruct (C116_coefficient 2 4 0 parts [-3; 1]) as (c & Ec & Dc & Bc); auto; try lia; [cbn; lia|cbn; apply perm_swap|]. exists c. split; [auto|]. split; [auto|]. rewrite E in Bc.
  eapply Rle_trans; [exact Bc|]. unfold deposit_error, unit_roundoff. rewrite !INR_IZR_INZ. cbn [parts length Z.of_nat map sum_of corner_deposit d_value d_sizes]. replace (nth 0 (sizes_quad 2) 0) with 1 by (cbn; ring).
  rewrite Rabs_R1, (Rabs_left (-3)) by lra. cbn. lra.
Qed.
