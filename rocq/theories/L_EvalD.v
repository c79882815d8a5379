(** Lemmas for C115. *)
From Flocq Require Import Core.
From Verif Require Import M_RealBase L_RealBase M_Loop L_Loop M_Grid M_Double S_Double L_Double L_Double2 M_BorisD L_SumD L_CoordD L_BaryD S_BaryD P_Double S_Jacobi L_Jacobi L_Basis1 S_Basis L_Basis3 L_Basis4 M_BasisD S_BasisD L_BasisD L_BasisD2 L_BasisD3 P_BasisD M_EvalD S_EvalD.
From Coq Require Import Reals Lra Lia ZArith Bool Arith List.
Import ListNotations.
Open Scope R_scope.
Notation fl := M_Double.fl.

Definition few (K : nat) : Prop := (Z.of_nat K <= 1048576)%Z.
Lemma few_u K : few K -> INR K * u <= 1 / 4.
Proof. intros H. apply IZR_le in H. rewrite <- INR_IZR_INZ in H. pose proof u_pos. rewrite u_val. lra. Qed.
Lemma few_g K : few K -> g K <= 2.
Proof. intros H. pose proof (few_u K H). pose proof (g_lin K ltac:(lra)). lra. Qed.
Lemma rnd_nf K x y m : near (g K) x y m -> okm m -> few K -> exists r, fl x = Some r /\ nd (K + 2) r y m.
Proof.
  intros N [S B] HK. pose proof (near_pos _ _ _ _ N) as m0. destruct (near_rnd _ _ _ _ N S) as (r & E & D & N').
  { pose proof (few_g K HK). pose proof (g_ge1 K). apply Rle_trans with (2 * m); [apply Rmult_le_compat_r; lra|]. apply pow_900; auto. }
  exists r. split; auto. split; auto. rewrite g_add. auto.
Qed.
Lemma nf_mul K K' x y m x' y' m' : nd K x y m -> nd K' x' y' m' -> okm (m * m') -> few (K + K') ->
  exists r, fl (x * x') = Some r /\ nd (K + K' + 2) r (y * y') (m * m').
Proof. intros [_ N] [_ N'] O H. apply rnd_nf; auto. apply near_gmul; auto. Qed.
Lemma nf_ma f K a b c ya yb yc ma mb mc Ka Kb :
  nd Ka a ya ma -> nd Kb b yb mb -> nd K c yc mc -> (Ka + Kb <= K)%nat -> few (K + 2) -> small_or (ma * mb) -> small_or mc -> ma * mb + mc <= 2 ^ 900 ->
  exists r, mul_add f a b c = Some r /\ nd (K + 4) r (ya * yb + yc) (ma * mb + mc).
Proof.
  intros A B C H1 HK S1 S2 U. pose proof (Rmult_le_pos _ _ (nd_pos _ _ _ _ A) (nd_pos _ _ _ _ B)) as p1. pose proof (nd_pos _ _ _ _ C) as p2.
  pose proof (small_sum _ _ p1 p2 S1 S2) as S3. assert (HK0 : few K) by (unfold few in *; lia).
  assert (N1 : near (g K) (a * b) (ya * yb) (ma * mb)) by (eapply near_le; [apply (g_mono (Ka + Kb)); auto|apply near_gmul; [apply A|apply B]]).
  destruct (rnd_nf _ _ _ _ N1) as (p & Ep & Np); [split; [auto|lra]|auto|].
  assert (L : forall x y m, near (g K) x y m -> near (g (K + 2)) x y m) by (intros; eapply near_le; [apply (g_mono K); lia|auto]).
  replace (K + 4)%nat with (K + 2 + 2)%nat by lia. unfold mul_add. destruct f; [|rewrite Ep; cbn [bind]]; apply rnd_nf; auto; try (split; [auto|lra]).
  - apply near_add; [auto|apply L, C]. - apply near_add; [apply Np|apply L, C].
Qed.
Lemma nf_within K x y m : nd K x y m -> few K -> Rabs (x - y) <= 2 * INR K * u * m.
Proof.
  intros [_ (A & B & C)] H. eapply Rle_trans; [exact C|]. pose proof (Rabs_pos y). apply Rmult_le_compat_r; [lra|]. pose proof (few_u K H). pose proof (g_lin K ltac:(lra)). lra.
Qed.

(** ** Sizes bound the modes *)
Lemma half_range z : -1 <= z <= 1 -> 0 <= (1 - z) / 2 <= 1 /\ 0 <= (1 + z) / 2 <= 1. Proof. lra. Qed.
Lemma modA_size p z : -1 <= z <= 1 -> Rabs (modA p z) <= size_A p.
Proof.
  intros Z. destruct (half_range z Z) as [B0 B1]. destruct p as [|[|n]]; cbn [modA size_A]; [rewrite Rabs_pos_eq; lra|rewrite Rabs_pos_eq; lra|].
  rewrite Rabs_mult. rewrite <- (Rmult_1_l (growth 1 n)). apply Rmult_le_compat; [apply Rabs_pos|apply Rabs_pos| |apply C114_size_bounds; auto].
  rewrite Rabs_pos_eq by (apply Rmult_le_pos; lra). apply Rle_trans with (1 * 1); [apply Rmult_le_compat; lra|lra].
Qed.
Lemma modB_size p q z : -1 <= z <= 1 -> Rabs (modB p q z) <= size_B p q.
Proof.
  intros Z. destruct (half_range z Z) as [B0 B1]. destruct p as [|p]; [apply modA_size; auto|].
  assert (PW : 0 <= ((1 - z) / 2) ^ S p <= 1) by (split; [apply pow_le; apply B0|pose proof (pow_incr _ 1 (S p) B0) as X; rewrite pow1 in X; exact X]).
  destruct q as [|n]; [change (size_B (S p) 0) with 1; change (modB (S p) 0 z) with (((1 - z) / 2) ^ S p); rewrite Rabs_pos_eq by apply PW; apply PW|].
  change (modB (S p) (S n) z) with (((1 - z) / 2) ^ S p * ((1 + z) / 2) * Jacobi (2 * S p - 1) 1 n z). change (size_B (S p) (S n)) with (growth (2 * S p - 1) n).
  rewrite Rabs_mult. rewrite <- (Rmult_1_l (growth _ n)). apply Rmult_le_compat; [apply Rabs_pos|apply Rabs_pos| |apply C114_size_bounds; auto].
  rewrite Rabs_pos_eq by (apply Rmult_le_pos; [apply PW|apply B1]). apply Rle_trans with (1 * 1); [apply Rmult_le_compat; [apply PW|apply B1|apply PW|apply B1]|lra].
Qed.
Lemma size_A_range p : (p < 32)%nat -> 1 <= size_A p <= 2 ^ 100.
Proof.
  intros H. assert (1 <= 2 ^ 100) by (apply pow_R1_Rle; lra). destruct p as [|[|n]]; cbn [size_A]; [split; [apply Rle_refl|auto]|split; [apply Rle_refl|auto]|]. destruct (growth_range 1 n) as [A B]. split; [auto|].
  eapply Rle_trans; [exact B|]. apply Rle_trans with ((2 ^ 3) ^ n); [apply pow_incr; cbn [INR pow]; lra|]. rewrite <- pow_mult. apply Rle_pow; [lra|lia].
Qed.
Lemma size_B_range p q : (p + q < 32)%nat -> 1 <= size_B p q <= 2 ^ 217.
Proof.
  intros H. destruct p as [|p].
  - destruct (size_A_range q) as [A B]; [lia|]. cbn [size_B]. split; [auto|]. eapply Rle_trans; [exact B|apply Rle_pow; [lra|lia]].
  - destruct q as [|n]; [split; [cbn; lra|apply pow_R1_Rle; lra]|]. change (size_B (S p) (S n)) with (growth (2 * S p - 1) n). destruct (growth_range (2 * S p - 1) n) as [A B]. split; [auto|].
    eapply Rle_trans; [exact B|]. apply Rle_trans with ((2 ^ 7) ^ n).
    + apply pow_incr. assert (L : INR (2 * S p - 1) <= INR 62) by (apply le_INR; lia). replace (INR 62) with 62 in L by (rewrite INR_IZR_INZ; reflexivity).
      pose proof (pos_INR (2 * S p - 1)). split; [lra|]. cbn [pow]. lra.
    + rewrite <- pow_mult. apply Rle_pow; [lra|lia].
Qed.
(** an entry of an array of local modes *)
Lemma entry_md P ls sized i y m : space P ls sized -> (P <= 32)%nat -> nth_error sized i = Some (y, m) -> Rabs y <= m -> md (28 * P + 64) (entry ls i) y m.
Proof.
  intros S HP N Y. unfold entry. revert i N. induction S as [|v ym ls sized (r & E & D & B) S IH]; intros i N; [destruct i; discriminate|].
  destruct i as [|i]; cbn [nth_error] in *; [|apply IH; auto]. injection N as ->. cbn [fst snd] in B. exists r. split; [auto|]. split; [auto|]. split; [apply g_ge1|]. split; [auto|].
  pose proof (Rabs_pos y). eapply Rle_trans; [exact B|]. apply Rmult_le_compat_r; [lra|]. unfold basis_error. rewrite u_eq.
  assert (L : 1 + INR (28 * P + 64) * u <= g (28 * P + 64)).
  { unfold g. pose proof u_pos. generalize (28 * P + 64)%nat as k. induction k as [|k IHk]; [cbn; lra|]. rewrite S_INR. cbn [pow]. pose proof (pos_INR k).
    assert (1 <= (1 + u) ^ k) by (apply pow_R1_Rle; lra). assert (u * 1 <= u * (1 + u) ^ k) by (apply Rmult_le_compat_l; lra). lra. }
  rewrite plus_INR, mult_INR in L. replace (INR 28) with 28 in L by (rewrite INR_IZR_INZ; reflexivity). replace (INR 64) with 64 in L by (rewrite INR_IZR_INZ; reflexivity). lra.
Qed.
Lemma entry_A P z ls p : coordinate z -> space P ls (sized_A P z) -> (P <= 32)%nat -> (p < P)%nat -> md (28 * P + 64) (entry ls p) (modA p z) (size_A p).
Proof.
  intros [_ Z] S HP Hp. eapply entry_md; [exact S|auto| |apply modA_size; auto]. unfold sized_A. rewrite nth_error_map, nth_error_seq by auto. reflexivity.
Qed.
Lemma entry_B P z ls p q : coordinate z -> space P ls (sized_B P z) -> (P <= 32)%nat -> (p < P)%nat -> (q < P - p)%nat ->
  md (28 * P + 64) (entry ls (length (pre2 (fun p => (P - p)%nat) p q))) (modB p q z) (size_B p q).
Proof.
  intros [_ Z] S HP Hp Hq. eapply entry_md; [exact S|auto| |apply modB_size; auto]. unfold sized_B. rewrite (nth_idx2 (fun '(p, q) => (modB p q z, size_B p q))); auto.
Qed.
Lemma entry_C P z ls p q r : coordinate z -> space P ls (sized_C P z) -> (P <= 32)%nat -> (p < P)%nat -> (q < P - p)%nat -> (r < P - p - q)%nat ->
  md (28 * P + 64) (entry ls (length (pre3 (fun p => (P - p)%nat) (fun p q => (P - p - q)%nat) p q r))) (modC p q r z) (size_B (p + q) r).
Proof.
  intros [_ Z] S HP Hp Hq Hr. eapply entry_md; [exact S|auto| |apply modB_size; auto]. unfold sized_C. rewrite (nth_idx3 (fun '(p, q, r) => (modC p q r z, size_B (p + q) r))); auto.
Qed.
