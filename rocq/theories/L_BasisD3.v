(** Lemmas for C114: the kernels. *)
From Flocq Require Import Core.
From Verif Require Import M_RealBase L_RealBase M_Loop L_Loop M_Grid M_Double S_Double L_Double L_Double2 M_BorisD L_SumD L_BaryD P_BaryD S_Jacobi L_Jacobi L_Basis1 S_Basis M_BasisD S_BasisD L_BasisD L_BasisD2.
From Coq Require Import Reals Lra Lia ZArith Bool Arith List.
Import ListNotations.
Open Scope R_scope.

Definition md (K : nat) (v : option R) (y m : R) : Prop := exists r, v = Some r /\ nd K r y m.
Lemma md_le K K' v y m : (K <= K')%nat -> md K v y m -> md K' v y m.
Proof. intros L (r & E & N). exists r. split; auto. eapply nd_le; eauto. Qed.
Lemma fmul_md K K' a b ya yb ma mb : md K a ya ma -> md K' b yb mb -> okm (ma * mb) -> (K + K' <= 4000)%nat -> md (K + K' + 2) (fmul_d a b) (ya * yb) (ma * mb).
Proof. intros (x & -> & N) (y & -> & N') O H. unfold fmul_d. cbn [bind]. apply nd_mul; auto. Qed.
Lemma okm_range m : 1 <= m -> m <= 2 ^ 640 -> okm m.
Proof. intros A B. apply okm_big. split; [apply Rle_trans with (/ 2 ^ 0); [apply pw; lia|cbn; lra]|eapply Rle_trans; [exact B|apply Rle_pow; [lra|lia]]]. Qed.
Lemma okm_g alpha n : (alpha <= 510)%nat -> (n <= 64)%nat -> okm (growth alpha n).
Proof. intros. apply okm_range; [apply growth_range|apply growth_640; auto]. Qed.
Lemma okm_1 : okm 1. Proof. apply okm_range; [lra|apply pow_R1_Rle; lra]. Qed.
Lemma b0_md z : zok z -> md 4 (b0_d z) ((1 - z) / 2) 1.
Proof.
  intros [D B]. unfold b0_d. destruct (rnd_nd 0 (1 - z) (1 - z) 2) as (t & -> & N); [|apply okm_range; [lra|apply Rle_trans with (2 ^ 1); [cbn; lra|apply Rle_pow; [lra|lia]]]|lia|].
  - split; [apply g_ge1|]. split; [apply Rabs_le; lra|]. rewrite Rminus_diag_eq, Rabs_R0 by auto. pose proof (g_ge1 0). lra.
  - cbn [bind]. destruct (half_nd _ _ _ _ N) as (r & Er & Nr); [apply okm_range; [lra|apply Rle_trans with 1; [lra|apply pow_R1_Rle; lra]]|lia|]. exists r. split; auto. replace (2 / 2) with 1 in Nr by field. exact Nr.
Qed.
Lemma b1_md z : zok z -> md 4 (b1_d z) ((1 + z) / 2) 1.
Proof.
  intros [D B]. unfold b1_d. destruct (rnd_nd 0 (1 + z) (1 + z) 2) as (t & -> & N); [|apply okm_range; [lra|apply Rle_trans with (2 ^ 1); [cbn; lra|apply Rle_pow; [lra|lia]]]|lia|].
  - split; [apply g_ge1|]. split; [apply Rabs_le; lra|]. rewrite Rminus_diag_eq, Rabs_R0 by auto. pose proof (g_ge1 0). lra.
  - cbn [bind]. destruct (half_nd _ _ _ _ N) as (r & Er & Nr); [apply okm_range; [lra|apply Rle_trans with 1; [lra|apply pow_R1_Rle; lra]]|lia|]. exists r. split; auto. replace (2 / 2) with 1 in Nr by field. exact Nr.
Qed.
(** the power of b0: starts at 1 / b0 *)
Lemma pow_start z : zok z -> z < 1 -> md 24 (fmul_d (do x <- b0_d z; div_d 1 x) (b0_d z)) 1 1.
Proof.
  intros [D B] Hz. assert (Gap : / 2 ^ 100 <= 1 - z).
  { assert (X : / 2 ^ 100 <= Rabs (z - 1)); [|rewrite Rabs_left1 in X by lra; lra]. apply (C113_gap 1 z); [apply (dbl_Z 1); lia|auto|lra|left]. rewrite Rabs_pos_eq by lra. apply Rle_trans with (/ 2 ^ 0); [apply pw; lia|cbn; lra]. }
  assert (P800 : 2 <= 2 ^ 800) by (apply Rle_trans with (2 ^ 1); [cbn; lra|apply Rle_pow; [lra|lia]]). assert (p100 : 0 < / 2 ^ 100) by (apply Rinv_0_lt_compat, pow_lt; lra).
  unfold b0_d. destruct (rnd_nd 0 (1 - z) (1 - z) (1 - z)) as (t & -> & N); [|apply okm_big; lra|lia|].
  { split; [apply g_ge1|]. split; [rewrite Rabs_pos_eq; lra|]. rewrite Rminus_diag_eq, Rabs_R0 by auto. pose proof (g_ge1 0). apply Rmult_le_pos; lra. }
  cbn [bind]. assert (P2 : / 2 ^ 900 <= / 2 * / 2 ^ 100). { rewrite <- Rinv_mult. apply Rinv_le_contravar; [apply Rmult_lt_0_compat; [lra|apply pow_lt; lra]|]. change (2 * 2 ^ 100) with (2 ^ 101). apply Rle_pow; [lra|lia]. }
  assert (P9 : 2 <= 2 ^ 900) by (apply Rle_trans with (2 ^ 1); [cbn; lra|apply Rle_pow; [lra|lia]]).
  destruct (half_nd _ _ _ _ N) as (b & -> & Nb); [split; [right|]; lra|lia|]. cbn [bind].
  set (y := (1 - z) / 2) in *. assert (Y : / 2 * / 2 ^ 100 <= y <= 1) by (unfold y; lra). assert (Y0 : 0 < y) by lra.
  assert (U : (g 4 - 1) * 1 <= 8 * u). { assert (X : INR 4 * u <= 1 / 2) by (pose proof u_small; cbn [INR]; lra). pose proof (g_lin 4 X) as GL. cbn [INR] in GL. lra. }
  pose proof u_small. pose proof u_pos. destruct Nb as [Db Nb]. change (0 + 2 + 2)%nat with 4%nat in Nb. destruct (near_inv _ _ _ _ 1 Nb) as [B0 Ni]; [apply Rgt_not_eq; lra|rewrite Rabs_pos_eq; lra|lra|].
  rewrite (Rabs_pos_eq y) in Ni by lra.
  assert (N16 : near (g 16) (1 / b) (1 / y) (/ y)).
  { eapply near_le; [|exact Ni]. assert (X : forall k, 1 + INR k * u <= g k). { intros k. induction k as [|k IH]; [unfold g; cbn; lra|]. rewrite S_INR, g_S. assert (0 <= INR k * u) by (apply Rmult_le_pos; [apply pos_INR|lra]). assert ((1 + u) * (1 + INR k * u) <= (1 + u) * g k) by (apply Rmult_le_compat_l; lra). assert (0 <= u * (INR k * u)) by (apply Rmult_le_pos; lra). lra. }
    specialize (X 16%nat). cbn [INR] in X. lra. }
  assert (IY : 1 <= / y <= 2 ^ 101). { split; [rewrite <- Rinv_1; apply Rinv_le_contravar; lra|]. replace (2 ^ 101) with (/ (/ 2 * / 2 ^ 100)) by (rewrite Rinv_mult, !Rinv_inv; reflexivity). apply Rinv_le_contravar; lra. }
  destruct (rnd_nd 16 _ _ _ N16) as (i & Ei & Nd); [apply okm_range; [lra|apply Rle_trans with (2 ^ 101); [lra|apply Rle_pow; [lra|lia]]]|lia|].
  assert (Ed : div_d 1 b = Some i) by (unfold div_d; rewrite Req_bool_false; auto). rewrite Ed. unfold fmul_d. cbn [bind].
  assert (E1 : / y * y = 1) by (field; lra).
  destruct (nd_mul _ _ _ _ _ _ _ _ Nd (conj Db Nb)) as (r & Er & Nr); [rewrite E1; apply okm_1|lia|]. exists r. split; [auto|]. rewrite E1 in Nr. replace (1 / y * y) with 1 in Nr by (field; lra). exact Nr.
Qed.
Lemma pow_step z p v : zok z -> (p <= 130)%nat -> md (24 + 6 * p) v (((1 - z) / 2) ^ p) 1 -> md (24 + 6 * S p) (fmul_d v (b0_d z)) (((1 - z) / 2) ^ S p) 1.
Proof.
  intros Z H N. pose proof (fmul_md _ _ _ _ _ _ _ _ N (b0_md z Z)) as X. rewrite Rmult_1_r in X. specialize (X okm_1 ltac:(lia)).
  change (((1 - z) / 2) ^ S p) with ((1 - z) / 2 * ((1 - z) / 2) ^ p). rewrite Rmult_comm. eapply md_le; [|exact X]. lia.
Qed.

(** * Rows *)
Definition row_mode (z : R) (p : nat) (v : option R) (q : nat) : Prop := md (32 + 14 * (p + q)) v (modB p q z) (size_B p q).
Lemma jac_md K v alpha n z : jac K v alpha n z = md K v (Jacobi alpha 1 n z) (growth alpha n). Proof. reflexivity. Qed.
Lemma Forall2_snoc {A B} (P : A -> B -> Prop) l l' a b : Forall2 P l l' -> P a b -> Forall2 P (l ++ [a]) (l' ++ [b]).
Proof. intros H Hp. apply Forall2_app; [auto|constructor; auto]. Qed.
Lemma row_d F mn ma z px bp n out : zok z -> (n <= mn + 2)%nat -> (1 <= ma)%nat -> (2 * px - 1 <= ma)%nat -> (px + n <= 64)%nat ->
  (px = O \/ md (24 + 6 * px) bp (((1 - z) / 2) ^ px) 1) ->
  exists new, mod_row_d F (make_table_d mn ma) z (b0_d z) (b1_d z) px bp n out = out ++ new /\ Forall2 (row_mode z px) new (seq 0 n).
Proof.
  intros Z Hn Ha1 Ha H64 Hbp. unfold mod_row_d. pose proof (b0_md z Z) as N0. pose proof (b1_md z Z) as N1. set (T := make_table_d mn ma).
  assert (G : exists p1 p2 new, forr n (row_step_d F T z (b0_d z) (b1_d z) px bp) (None, None, out) = (p1, p2, out ++ new) /\ Forall2 (row_mode z px) new (seq 0 n) /\
     (px = O -> (3 <= n -> jac (14 * (n - 3)) p2 1 (n - 4) z) /\ (4 <= n -> jac (14 * (n - 3)) p1 1 (n - 3) z))%nat /\
     (px <> O -> (2 <= n -> jac (14 * (n - 2)) p2 (2 * px - 1) (n - 3) z) /\ (3 <= n -> jac (14 * (n - 2)) p1 (2 * px - 1) (n - 2) z))%nat).
  { induction n as [|n IH].
    - exists None, None, []. cbn. rewrite app_nil_r. repeat split; intros; try lia. constructor.
    - destruct IH as (p1 & p2 & new & E & NW & I0 & I1); [lia|lia|]. rewrite forr_S, E. rewrite seq_S, Nat.add_0_l.
      assert (FIN : forall P1 P2 v, row_mode z px v n ->
        (px = O -> (3 <= S n -> jac (14 * (S n - 3)) P2 1 (S n - 4) z) /\ (4 <= S n -> jac (14 * (S n - 3)) P1 1 (S n - 3) z))%nat ->
        (px <> O -> (2 <= S n -> jac (14 * (S n - 2)) P2 (2 * px - 1) (S n - 3) z) /\ (3 <= S n -> jac (14 * (S n - 2)) P1 (2 * px - 1) (S n - 2) z))%nat ->
        exists p1 p2 new', (P1, P2, (out ++ new) ++ [v]) = (p1, p2, out ++ new') /\ Forall2 (row_mode z px) new' (seq 0 n ++ [n]) /\
          (px = O -> (3 <= S n -> jac (14 * (S n - 3)) p2 1 (S n - 4) z) /\ (4 <= S n -> jac (14 * (S n - 3)) p1 1 (S n - 3) z))%nat /\
          (px <> O -> (2 <= S n -> jac (14 * (S n - 2)) p2 (2 * px - 1) (S n - 3) z) /\ (3 <= S n -> jac (14 * (S n - 2)) p1 (2 * px - 1) (S n - 2) z))%nat).
      { intros P1 P2 v HV A0 A1. exists P1, P2, (new ++ [v]). rewrite app_assoc. split; [auto|]. split; [apply Forall2_snoc; auto|]. auto. }
      unfold row_step_d. cbv zeta.
      destruct px as [|px]; cbn [Nat.eqb].
      + specialize (I0 eq_refl). destruct I0 as [I0 I0']. clear I1 Hbp.
        destruct n as [|[|[|[|n]]]]; cbn [Nat.eqb].
        * apply FIN; [|intros _; split; intros; lia|congruence]. apply (md_le 4); [lia|exact N0].
        * apply FIN; [|intros _; split; intros; lia|congruence]. apply (md_le 4); [lia|exact N1].
        * apply FIN; [|intros _; split; intros; [|lia]|congruence].
          -- unfold row_mode. cbn [modB modA size_B size_A]. rewrite Jacobi_0, Rmult_1_r. pose proof (fmul_md _ _ _ _ _ _ _ _ N0 N1) as X. rewrite Rmult_1_r in X. eapply md_le; [|apply X; [apply okm_1|lia]]. lia.
          -- change (3 - 4)%nat with O. eapply md_le; [|apply jac_0]. lia.
        * pose proof (first_A_nd (snd (F 3%nat)) z Z) as J. apply FIN; [|intros _; split; intros|congruence].
          -- unfold row_mode. cbn [modB modA size_B size_A]. pose proof (fmul_md _ _ _ _ _ _ _ _ N0 N1) as X. rewrite Rmult_1_r in X. specialize (X okm_1 ltac:(lia)).
             pose proof (fmul_md _ _ _ _ _ _ _ _ X J) as Y. rewrite Rmult_1_l in Y. eapply md_le; [|apply Y; [apply okm_g; lia|lia]]. lia.
          -- eapply md_le; [|apply I0; lia]. lia.
          -- eapply md_le; [|exact J]. lia.
        * replace (S (S (S (S n))) - 4)%nat with n in I0 by lia. replace (S (S (S (S n))) - 3)%nat with (S n) in I0, I0' by lia. replace (S (S (S (S n))) - 2)%nat with (S (S n)) by lia.
          assert (J : jac (14 * (n + 2)) (recur_d (F (S (S (S (S n))))) T 1 (S (S n)) z p1 p2) 1 (S (S n)) z).
          { eapply md_le; [|unfold T; apply (recur_nd _ _ _ _ _ _ (14 * (n + 1))); auto; try lia].
            - lia.
            - eapply md_le; [|apply I0'; lia]. lia.
            - eapply md_le; [|apply I0; lia]. lia. }
          apply FIN; [|intros _; split; intros|congruence].
          -- unfold row_mode. cbn [modB modA size_B size_A]. pose proof (fmul_md _ _ _ _ _ _ _ _ J N0) as X. rewrite Rmult_1_r in X. specialize (X (okm_g 1 (S (S n)) ltac:(lia) ltac:(lia)) ltac:(lia)).
             pose proof (fmul_md _ _ _ _ _ _ _ _ X N1) as Y. rewrite Rmult_1_r in Y. specialize (Y (okm_g 1 (S (S n)) ltac:(lia) ltac:(lia)) ltac:(lia)).
             replace ((1 - z) / 2 * ((1 + z) / 2) * Jacobi 1 1 (S (S n)) z) with (Jacobi 1 1 (S (S n)) z * ((1 - z) / 2) * ((1 + z) / 2)) by ring. eapply md_le; [|exact Y]. lia.
          -- replace (S (S (S (S (S n)))) - 4)%nat with (S n)%nat by lia. eapply md_le; [|apply I0'; lia]. lia.
          -- replace (S (S (S (S (S n)))) - 3)%nat with (S (S n)) by lia. eapply md_le; [|exact J]. lia.
      + specialize (I1 ltac:(congruence)). destruct I1 as [I1 I1']. clear I0. set (al := (2 * S px - 1)%nat) in *. destruct Hbp as [Hbp|Hbp]; [discriminate|].
        pose proof (fmul_md _ _ _ _ _ _ _ _ Hbp N1) as NB. rewrite Rmult_1_r in NB. specialize (NB okm_1 ltac:(lia)).
        destruct n as [|[|[|n]]]; cbn [Nat.eqb].
        * apply FIN; [|congruence|intros _; split; intros; lia]. unfold row_mode. cbn [modB size_B]. eapply md_le; [|exact Hbp]. lia.
        * apply FIN; [|congruence|intros _; split; intros; [|lia]].
          -- unfold row_mode. cbn [modB size_B]. rewrite Jacobi_0, Rmult_1_r. change (growth (2 * S px - 1) 0) with 1. eapply md_le; [|exact NB]. lia.
          -- change (2 - 3)%nat with O. eapply md_le; [|apply jac_0]. lia.
        * pose proof (first_nd (snd (F 2%nat)) al z Z ltac:(unfold al; lia)) as J. apply FIN; [|congruence|intros _; split; intros].
          -- unfold row_mode. cbn [modB size_B]. fold al. pose proof (fmul_md _ _ _ _ _ _ _ _ NB J) as Y. rewrite Rmult_1_l in Y. eapply md_le; [|apply Y; [apply okm_g; unfold al; lia|lia]]. lia.
          -- eapply md_le; [|apply I1; lia]. lia.
          -- eapply md_le; [|exact J]. lia.
        * replace (S (S (S n)) - 3)%nat with n in I1 by lia. replace (S (S (S n)) - 2)%nat with (S n) in I1, I1' by lia. replace (S (S (S n)) - 1)%nat with (S (S n)) by lia.
          assert (J : jac (14 * (n + 2)) (recur_d (F (S (S (S n)))) T al (S (S n)) z p1 p2) al (S (S n)) z).
          { eapply md_le; [|unfold T; apply (recur_nd _ _ _ _ _ _ (14 * (n + 1))); auto; try (unfold al; lia)].
            - lia.
            - eapply md_le; [|apply I1'; lia]. lia.
            - eapply md_le; [|apply I1; lia]. lia. }
          apply FIN; [|congruence|intros _; split; intros].
          -- unfold row_mode. cbn [modB size_B]. fold al. pose proof (fmul_md _ _ _ _ _ _ _ _ NB J) as Y. rewrite Rmult_1_l in Y. eapply md_le; [|apply Y; [apply okm_g; unfold al; lia|lia]]. lia.
          -- replace (S (S (S (S n))) - 3)%nat with (S n)%nat by lia. eapply md_le; [|apply I1'; lia]. lia.
          -- replace (S (S (S (S n))) - 2)%nat with (S (S n)) by lia. eapply md_le; [|exact J]. lia. }
  destruct G as (p1 & p2 & new & E & NW & _). rewrite E. exists new. auto.
Qed.
(** * The kernels *)
Lemma row_within P z p v q : (p + q < P)%nat -> (P <= 64)%nat -> row_mode z p v q -> mode_within (basis_error P) v (modB p q z, size_B p q).
Proof.
  intros H HP (r & E & N). exists r. split; [auto|]. split; [apply N|]. cbn [fst snd]. pose proof (nd_pos _ _ _ _ N). eapply Rle_trans; [eapply nd_within; [exact N|lia]|].
  apply Rmult_le_compat_r; [auto|]. unfold basis_error. rewrite u_eq. apply Rmult_le_compat_r; [pose proof u_pos; lra|].
  rewrite plus_INR, mult_INR. assert (INR (p + q) <= INR P) by (apply le_INR; lia). assert (E32 : INR 32 = 32) by (rewrite INR_IZR_INZ; reflexivity). assert (E14 : INR 14 = 14) by (rewrite INR_IZR_INZ; reflexivity). rewrite E32, E14. lra.
Qed.
Lemma Forall2_map_r {A B C} (P : A -> C -> Prop) (f : B -> C) l l' : Forall2 (fun a b => P a (f b)) l l' -> Forall2 P l (map f l').
Proof. induction 1; constructor; auto. Qed.
Lemma Forall2_in {A B} (P Q : A -> B -> Prop) l l' : (forall a b, In b l' -> P a b -> Q a b) -> Forall2 P l l' -> Forall2 Q l l'.
Proof. intros H. induction 1 as [|a b l l' Hab HF IH]; constructor; [apply H; [left; auto|auto]|]. apply IH. intros. apply H; [right; auto|auto]. Qed.
Lemma rows_B F mn ma P z : zok z -> z < 1 -> (P <= mn + 2)%nat -> (1 <= ma)%nat -> (2 * P <= ma + 3)%nat -> (P <= 64)%nat ->
  Forall2 (mode_within (basis_error P)) (mod_B_d F (make_table_d mn ma) P z) (sized_B P z).
Proof.
  intros Z Hz HP Ha1 Ha H64. unfold mod_B_d. cbv zeta. set (T := make_table_d mn ma).
  match goal with |- Forall2 _ (snd (forr P ?b ?s)) _ => assert (G : forall k, (k <= P)%nat ->
     md (24 + 6 * k) (fmul_d (fst (forr k b s)) (b0_d z)) (((1 - z) / 2) ^ k) 1 /\
     Forall2 (mode_within (basis_error P)) (snd (forr k b s)) (map (fun '(p, q) => (modB p q z, size_B p q)) (flat_map (fun p => map (fun q => (p, q)) (seq 0 (P - p))) (seq 0 k)))) end.
  { intros k. induction k as [|k IH]; intros Hk.
    - split; [apply pow_start; auto|constructor].
    - destruct IH as [I1 I2]; [lia|]. rewrite forr_S. cbn [fst snd]. split; [apply pow_step; auto; lia|].
      destruct (row_d (F k) mn ma z k _ (P - k) (snd (forr k (fun (px : nat) (st : option R * list (option R)) =>
         (fmul_d (fst st) (b0_d z), mod_row_d (F px) T z (b0_d z) (b1_d z) px (fmul_d (fst st) (b0_d z)) (P - px) (snd st)))
         (do x <- b0_d z; div_d 1 x, []))) Z ltac:(lia) Ha1 ltac:(lia) ltac:(lia) (or_intror I1)) as (new & E & FN).
      rewrite seq_S, flat_map_app, map_app. fold T in E. rewrite E. apply Forall2_app; [exact I2|]. cbn [flat_map]. rewrite app_nil_r, map_map. apply Forall2_map_r.
      eapply Forall2_in; [|exact FN]. intros v q Hq R0. apply in_seq in Hq. cbn [Nat.add]. apply row_within; auto; lia. }
  apply (G P). lia.
Qed.
Lemma modes_A F mn ma P z : zok z -> (2 <= P <= mn + 2)%nat -> (1 <= ma)%nat -> (P <= 64)%nat ->
  Forall2 (mode_within (basis_error P)) (mod_A_d F (make_table_d mn ma) P z) (sized_A P z).
Proof.
  intros Z HP Ha1 H64. pose proof (b0_md z Z) as N0. pose proof (b1_md z Z) as N1. unfold mod_A_d, sized_A. cbv zeta. set (T := make_table_d mn ma). set (p1 := first_A_d _ z).
  assert (J : jac 8 p1 1 1 z) by apply (first_A_nd _ _ Z).
  pose proof (fmul_md _ _ _ _ _ _ _ _ N0 N1) as NB. rewrite Rmult_1_r in NB. specialize (NB okm_1 ltac:(lia)).
  assert (M : forall n v, (n + 2 < P)%nat -> jac (14 * n) v 1 n z -> row_mode z 0 (fmul_d (fmul_d (b0_d z) (b1_d z)) v) (S (S n))).
  { intros n v Hn Jv. unfold row_mode. cbn [modB modA size_B size_A]. pose proof (fmul_md _ _ _ _ _ _ _ _ NB Jv) as Y. rewrite Rmult_1_l in Y. eapply md_le; [|apply Y; [apply okm_g; lia|lia]]. lia. }
  apply Forall2_map_r. cut (Forall2 (row_mode z 0) (snd (forr (P - 4) (fun i (st : rowst_d) => let '(pnm1, pnm2, out) := st in
      (recur_d (F (4 + i)%nat) T 1 (4 + i - 2) z pnm1 pnm2, pnm1, out ++ [fmul_d (fmul_d (b0_d z) (b1_d z)) (recur_d (F (4 + i)%nat) T 1 (4 + i - 2) z pnm1 pnm2)]))
      (p1, Some 1, if 3 <? P then (if 2 <? P then [b0_d z; b1_d z] ++ [fmul_d (b0_d z) (b1_d z)] else [b0_d z; b1_d z]) ++ [fmul_d (fmul_d (b0_d z) (b1_d z)) p1] else if 2 <? P then [b0_d z; b1_d z] ++ [fmul_d (b0_d z) (b1_d z)] else [b0_d z; b1_d z]))) (seq 0 P)).
  { intros H. eapply Forall2_in; [|exact H]. intros v q Hq R0. apply in_seq in Hq. apply (row_within P z 0); auto; lia. }
  assert (R0 : row_mode z 0 (b0_d z) 0) by (apply (md_le 4); [lia|exact N0]). assert (R1 : row_mode z 0 (b1_d z) 1) by (apply (md_le 4); [lia|exact N1]).
  assert (R2 : row_mode z 0 (fmul_d (b0_d z) (b1_d z)) 2) by (unfold row_mode; cbn [modB modA size_B size_A]; rewrite Jacobi_0, Rmult_1_r; eapply md_le; [|exact NB]; lia).
  destruct P as [|[|[|[|P]]]]; try lia; cbn [Nat.ltb Nat.leb].
  - cbn [Nat.sub]. cbn. repeat (constructor; auto).
  - cbn [Nat.sub]. cbn. repeat (constructor; auto).
  - replace (S (S (S (S P))) - 4)%nat with P by lia.
    assert (R3 : row_mode z 0 (fmul_d (fmul_d (b0_d z) (b1_d z)) p1) 3) by (apply M; [lia|eapply md_le; [|exact J]; lia]).
    match goal with |- Forall2 _ (snd (forr P ?b ?s)) _ => assert (G : forall k, (k <= P)%nat -> exists a c out, forr k b s = (a, c, out) /\ jac (14 * (k + 1)) a 1 (S k) z /\ jac (14 * (k + 1)) c 1 k z /\ Forall2 (row_mode z 0) out (seq 0 (S (S (S (S k)))))) end.
    { intros k. induction k as [|k IH]; intros Hk.
      - do 3 eexists. split; [reflexivity|]. split; [eapply md_le; [|exact J]; lia|]. split; [eapply md_le; [|apply jac_0]; lia|]. cbn. repeat (constructor; auto).
      - destruct IH as (a & c & out & E & Ja & Jc & Fo); [lia|]. rewrite forr_S, E. do 3 eexists. split; [reflexivity|]. replace (4 + k - 2)%nat with (S (S k)) by lia.
        assert (JN : jac (14 * (S (S k))) (recur_d (F (4 + k)%nat) T 1 (S (S k)) z a c) 1 (S (S k)) z).
        { eapply md_le; [|unfold T; apply (recur_nd _ _ _ _ _ _ (14 * (k + 1))); auto; lia]. lia. }
        split; [eapply md_le; [|exact JN]; lia|]. split; [eapply md_le; [|exact Ja]; lia|]. rewrite seq_S. apply Forall2_snoc; [auto|]. cbn [Nat.add]. apply M; [lia|auto]. }
    destruct (G P) as (a & c & out & E & _ & _ & Fo); [lia|]. rewrite E. exact Fo.
Qed.
Lemma rows_C F mn ma P z : zok z -> z < 1 -> (P <= mn + 2)%nat -> (1 <= ma)%nat -> (2 * P <= ma + 3)%nat -> (P <= 64)%nat ->
  Forall2 (mode_within (basis_error P)) (mod_C_d F (make_table_d mn ma) P z) (sized_C P z).
Proof.
  intros Z Hz HP Ha1 Ha H64. unfold mod_C_d. cbv zeta. set (T := make_table_d mn ma). set (sz := fun '(p, q, r) => (modC p q r z, size_B (p + q) r)).
  set (inner := fun p n => flat_map (fun q => map (fun r => (p, q, r)) (seq 0 (P - p - q))) (seq 0 n)).
  match goal with |- Forall2 _ (snd (forr P ?b ?s)) _ => assert (G : forall k, (k <= P)%nat ->
     md (24 + 6 * k) (fmul_d (fst (forr k b s)) (b0_d z)) (((1 - z) / 2) ^ k) 1 /\
     Forall2 (mode_within (basis_error P)) (snd (forr k b s)) (map sz (flat_map (fun p => inner p (P - p)%nat) (seq 0 k)))); [set (B := b); set (S0 := s)|] end.
  { intros k. induction k as [|k IH]; intros Hk.
    - split; [apply pow_start; auto|constructor].
    - destruct IH as [I1 I2]; [lia|]. rewrite forr_S. set (s := forr k B S0) in *. unfold B. cbn [fst snd]. split; [apply pow_step; auto; lia|].
      match goal with |- Forall2 _ (snd (forr (P - k) ?b ?s)) _ => assert (G : forall j, (j <= P - k)%nat ->
         md (24 + 6 * (k + j)) (fst (forr j b s)) (((1 - z) / 2) ^ (k + j)) 1 /\
         Forall2 (mode_within (basis_error P)) (snd (forr j b s)) (map sz (flat_map (fun p => inner p (P - p)%nat) (seq 0 k) ++ inner k j))); [set (B' := b); set (S' := s)|] end.
      { intros j. induction j as [|j IHj]; intros Hj.
        - split; [rewrite Nat.add_0_r; exact I1|]. unfold inner at 2. cbn [seq flat_map]. rewrite app_nil_r. exact I2.
        - destruct IHj as [J1 J2]; [lia|]. rewrite forr_S. set (s' := forr j B' S') in *. unfold B'. cbn [fst snd]. replace (k + S j)%nat with (S (k + j)) by lia. split; [apply pow_step; auto; lia|].
          destruct (row_d (F k j) mn ma z (k + j) (fst s') (P - k - j) (snd s') Z ltac:(lia) Ha1 ltac:(lia) ltac:(lia) (or_intror J1)) as (new & E & FN).
          fold T in E. rewrite E. unfold inner at 2. rewrite seq_S, flat_map_app. fold (inner k j). rewrite app_assoc, map_app. apply Forall2_app; [exact J2|].
          cbn [flat_map]. rewrite app_nil_r, map_map. apply Forall2_map_r. eapply Forall2_in; [|exact FN]. intros v r Hr R0. apply in_seq in Hr. cbn [Nat.add]. unfold sz, modC. apply row_within; auto; lia. }
      rewrite (seq_S k), flat_map_app. cbn [flat_map]. rewrite app_nil_r. cbn [Nat.add]. apply (G (P - k)%nat). lia. }
  apply (G P). lia.
Qed.
