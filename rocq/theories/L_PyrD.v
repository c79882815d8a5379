(** Lemmas for C114: the pyramid. *)
From Flocq Require Import Core.
From Verif Require Import M_RealBase L_RealBase M_Loop L_Loop M_Grid M_Double S_Double L_Double L_Double2 M_BorisD L_SumD L_BaryD P_BaryD S_Jacobi L_Jacobi L_Basis1 S_Basis M_BasisD S_BasisD L_BasisD L_BasisD2 L_BasisD3 P_BasisD M_PyrD S_PyrD.
From Coq Require Import Reals Lra Lia ZArith Bool Arith List.
Import ListNotations.
Open Scope R_scope.


(** a row with any power [w] of size at most 1 in place of the power of mod_B *)
Definition wmode (z w : R) (px q : nat) : R := match q with O => w | S n => w * ((1 + z) / 2) * Jacobi (2 * px - 1) 1 n z end.
Definition wsize (px q : nat) : R := match q with O => 1 | S n => growth (2 * px - 1) n end.
Definition wrow (z w : R) (px : nat) (v : option R) (q : nat) : Prop := md (32 + 14 * (px + q)) v (wmode z w px q) (wsize px q).
Lemma wrow_d F mn ma z px bp w n out : zok z -> (n <= mn + 2)%nat -> (1 <= px)%nat -> (2 * px - 1 <= ma)%nat -> (px + n <= 64)%nat -> md (24 + 6 * px) bp w 1 ->
  exists new, mod_row_d F (make_table_d mn ma) z (b0_d z) (b1_d z) px bp n out = out ++ new /\ Forall2 (wrow z w px) new (seq 0 n).
Proof.
  intros Z Hn Hpx Ha H64 Hbp. unfold mod_row_d. pose proof (b1_md z Z) as N1. set (T := make_table_d mn ma).
  assert (G : exists p1 p2 new, forr n (row_step_d F T z (b0_d z) (b1_d z) px bp) (None, None, out) = (p1, p2, out ++ new) /\ Forall2 (wrow z w px) new (seq 0 n) /\
     ((2 <= n -> jac (14 * (n - 2)) p2 (2 * px - 1) (n - 3) z) /\ (3 <= n -> jac (14 * (n - 2)) p1 (2 * px - 1) (n - 2) z))%nat).
  { induction n as [|n IH].
    - exists None, None, []. cbn. rewrite app_nil_r. repeat split; intros; try lia. constructor.
    - destruct IH as (p1 & p2 & new & E & NW & I1); [lia|lia|]. rewrite forr_S, E. rewrite seq_S, Nat.add_0_l.
      assert (FIN : forall P1 P2 v, wrow z w px v n ->
        ((2 <= S n -> jac (14 * (S n - 2)) P2 (2 * px - 1) (S n - 3) z) /\ (3 <= S n -> jac (14 * (S n - 2)) P1 (2 * px - 1) (S n - 2) z))%nat ->
        exists p1 p2 new', (P1, P2, (out ++ new) ++ [v]) = (p1, p2, out ++ new') /\ Forall2 (wrow z w px) new' (seq 0 n ++ [n]) /\
          ((2 <= S n -> jac (14 * (S n - 2)) p2 (2 * px - 1) (S n - 3) z) /\ (3 <= S n -> jac (14 * (S n - 2)) p1 (2 * px - 1) (S n - 2) z))%nat).
      { intros P1 P2 v HV A1. exists P1, P2, (new ++ [v]). rewrite app_assoc. split; [auto|]. split; [apply Forall2_snoc; auto|]. auto. }
      unfold row_step_d. cbv zeta. destruct px as [|px]; [lia|]. cbn [Nat.eqb].
      destruct I1 as [I1 I1']. set (al := (2 * S px - 1)%nat) in *.
      pose proof (fmul_md _ _ _ _ _ _ _ _ Hbp N1) as NB. rewrite Rmult_1_r in NB. specialize (NB okm_1 ltac:(lia)).
      destruct n as [|[|[|n]]]; cbn [Nat.eqb].
      * apply FIN; [|split; intros; lia]. unfold wrow. cbn [wmode wsize]. eapply md_le; [|exact Hbp]. lia.
      * apply FIN; [|split; intros; [|lia]].
        -- unfold wrow. cbn [wmode wsize]. rewrite Jacobi_0, Rmult_1_r. change (growth (2 * S px - 1) 0) with 1. eapply md_le; [|exact NB]. lia.
        -- change (2 - 3)%nat with O. eapply md_le; [|apply jac_0]. lia.
      * pose proof (first_nd (snd (F 2%nat)) al z Z ltac:(unfold al; lia)) as J. apply FIN; [|split; intros].
        -- unfold wrow. cbn [wmode wsize]. fold al. pose proof (fmul_md _ _ _ _ _ _ _ _ NB J) as Y. rewrite Rmult_1_l in Y. eapply md_le; [|apply Y; [apply okm_g; unfold al; lia|lia]]. lia.
        -- eapply md_le; [|apply I1; lia]. lia.
        -- eapply md_le; [|exact J]. lia.
      * replace (S (S (S n)) - 3)%nat with n in I1 by lia. replace (S (S (S n)) - 2)%nat with (S n) in I1, I1' by lia. replace (S (S (S n)) - 1)%nat with (S (S n)) by lia.
        assert (J : jac (14 * (n + 2)) (recur_d (F (S (S (S n)))) T al (S (S n)) z p1 p2) al (S (S n)) z).
        { eapply md_le; [|unfold T; apply (recur_nd _ _ _ _ _ _ (14 * (n + 1))); auto; try (unfold al; lia)].
          - lia.
          - eapply md_le; [|apply I1'; lia]. lia.
          - eapply md_le; [|apply I1; lia]. lia. }
        apply FIN; [|split; intros].
        -- unfold wrow. cbn [wmode wsize]. fold al. pose proof (fmul_md _ _ _ _ _ _ _ _ NB J) as Y. rewrite Rmult_1_l in Y. eapply md_le; [|apply Y; [apply okm_g; unfold al; lia|lia]]. lia.
        -- replace (S (S (S (S n))) - 3)%nat with (S n)%nat by lia. eapply md_le; [|apply I1'; lia]. lia.
        -- replace (S (S (S (S n))) - 2)%nat with (S (S n)) by lia. eapply md_le; [|exact J]. lia. }
  destruct G as (p1 & p2 & new & E & NW & _). rewrite E. exists new. auto.
Qed.
Lemma wrow_within P z w px v q : (px + q < 2 * P)%nat -> (2 * P <= 64)%nat -> wrow z w px v q -> mode_within (basis_error (2 * P)) v (wmode z w px q, wsize px q).
Proof.
  intros H HP (r & E & N). exists r. split; [auto|]. split; [apply N|]. cbn [fst snd]. pose proof (nd_pos _ _ _ _ N). eapply Rle_trans; [eapply nd_within; [exact N|lia]|].
  apply Rmult_le_compat_r; [auto|]. unfold basis_error. rewrite u_eq. apply Rmult_le_compat_r; [pose proof u_pos; lra|].
  rewrite plus_INR, mult_INR. assert (INR (px + q) <= INR (2 * P)) by (apply le_INR; lia). assert (E32 : INR 32 = 32) by (rewrite INR_IZR_INZ; reflexivity). assert (E14 : INR 14 = 14) by (rewrite INR_IZR_INZ; reflexivity). rewrite E32, E14. lra.
Qed.
Lemma within_le E E' v e : E <= E' -> 0 <= snd e -> mode_within E v e -> mode_within E' v e.
Proof. intros H H0 (r & A & B & C). exists r. split; [auto|]. split; [auto|]. eapply Rle_trans; [exact C|apply Rmult_le_compat_r; auto]. Qed.
Lemma Forall2_firstn {A B} (R : A -> B -> Prop) n l l' : Forall2 R l l' -> Forall2 R (firstn n l) (firstn n l').
Proof. intros H. revert n. induction H; intros [|n]; cbn; constructor; auto. Qed.
Lemma Forall2_skipn {A B} (R : A -> B -> Prop) n l l' : Forall2 R l l' -> Forall2 R (skipn n l) (skipn n l').
Proof. intros H. revert n. induction H; intros [|n]; cbn; auto. Qed.
Definition copyg {A} (base n : nat) (out : list A) : list A := out ++ firstn n (skipn base out).
Lemma copy_rel (W : option R -> R * R -> Prop) base n l (l' : list (R * R)) : Forall2 W l l' -> Forall2 W (copy_d base n l) (copyg base n l').
Proof. intros H. apply Forall2_app; [auto|]. apply Forall2_firstn, Forall2_skipn, H. Qed.
Lemma copyg_at {A} (a b c : list A) base n : length a = base -> length b = n -> copyg base n (a ++ b ++ c) = (a ++ b ++ c) ++ b.
Proof. intros <- <-. unfold copyg. rewrite skipn_app, skipn_all, Nat.sub_diag. cbn [skipn app]. rewrite firstn_app, firstn_all, Nat.sub_diag, firstn_O, app_nil_r. reflexivity. Qed.

Section Pyr.
Context (P : nat) (z : R).
Definition rB (p : nat) : list (R * R) := map (fun q => (modB p q z, size_B p q)) (seq 0 (P - p)).
Definition rows (a n : nat) : list (R * R) := flat_map rB (seq a n).
Lemma rB_length p : length (rB p) = (P - p)%nat. Proof. unfold rB. rewrite map_length, seq_length. auto. Qed.
Lemma rows_S a n : rows a (S n) = rB a ++ rows (S a) n. Proof. reflexivity. Qed.
Lemma rows_snoc a n : rows a (S n) = rows a n ++ rB (a + n). Proof. unfold rows. rewrite seq_S, flat_map_app. cbn [flat_map]. rewrite app_nil_r. reflexivity. Qed.
Lemma rows_app a n k : rows a (n + k) = rows a n ++ rows (a + n) k. Proof. unfold rows. rewrite seq_app, flat_map_app. reflexivity. Qed.
Lemma sized_B_rows : sized_B P z = rows 0 P.
Proof. unfold sized_B, idx2, rows, rB. rewrite flat_map_concat_map, concat_map, map_map, <- flat_map_concat_map. apply flat_map_ext. intros p. rewrite map_map. reflexivity. Qed.
Lemma rows_tail n : (n <= P)%nat -> (2 * length (rows (P - n) n) = n * (n + 1))%nat.
Proof. induction n as [|n IH]; intros H; [reflexivity|]. rewrite rows_S, app_length, rB_length. replace (S (P - S n)) with (P - n)%nat by lia. specialize (IH ltac:(lia)). nia. Qed.
Definition pr (p q : nat) : list (R * R) := map (fun r => (modPyrC p q r z, size_PyrC p q r)) (seq 0 (P - Nat.max p q)).
Definition block (p : nat) : list (R * R) := rB p ++ rB p ++ flat_map (pr p) (seq 2 (P - 2)).
Lemma sized_PyrC_blocks : (2 <= P)%nat -> sized_PyrC P z = rows 0 P ++ rB 1 ++ rows 1 (P - 1) ++ flat_map block (seq 2 (P - 2)).
Proof.
  intros HP. assert (E : sized_PyrC P z = flat_map (fun p => flat_map (pr p) (seq 0 P)) (seq 0 P)).
  { unfold sized_PyrC, idx3. rewrite flat_map_concat_map, concat_map, map_map, <- flat_map_concat_map. apply flat_map_ext. intros p.
    rewrite flat_map_concat_map, concat_map, map_map, <- flat_map_concat_map. apply flat_map_ext. intros q. rewrite map_map. reflexivity. }
  rewrite E. clear E. replace P with (S (S (P - 2))) at 1 by lia. cbn [seq flat_map].
  assert (E0 : flat_map (pr 0) (seq 0 P) = rows 0 P) by (unfold rows; apply flat_map_ext; intros q; unfold pr, rB; cbn [Nat.max]; apply map_ext; intros r; reflexivity).
  assert (E1 : flat_map (pr 1) (seq 0 P) = rB 1 ++ rows 1 (P - 1)).
  { replace P with (S (P - 1)) at 1 by lia. cbn [seq flat_map]. f_equal.
    unfold rows. rewrite !flat_map_concat_map. f_equal. apply map_ext_in. intros q Hq. apply in_seq in Hq. unfold pr, rB. replace (Nat.max 1 q) with q by lia. apply map_ext. intros r. destruct q; [lia|]. reflexivity. }
  rewrite E0, E1, <- app_assoc. do 3 f_equal. rewrite !flat_map_concat_map. f_equal. apply map_ext_in. intros p Hp. apply in_seq in Hp. unfold block.
  replace P with (S (S (P - 2))) at 1 by lia. cbn [seq flat_map]. unfold pr at 1 2, rB. replace (Nat.max p 0) with p by lia. replace (Nat.max p 1) with p by lia.
  destruct p as [|[|p]]; try lia. reflexivity.
Qed.
End Pyr.
Lemma rows_PyrC F G mn ma P z : zok z -> z < 1 -> (2 <= P <= mn + 2)%nat -> (1 <= ma)%nat -> (2 * P <= ma + 3)%nat -> (4 * P <= ma + 7)%nat -> (P <= 32)%nat ->
  Forall2 (mode_within (basis_error (2 * P))) (mod_PyrC_d F G (make_table_d mn ma) P z) (sized_PyrC P z).
Proof.
  intros Z Hz HP Ha1 Ha HA H32. unfold mod_PyrC_d. cbv zeta. rewrite sized_PyrC_blocks by lia. set (T := make_table_d mn ma). set (W := mode_within (basis_error (2 * P))).
  assert (F0 : Forall2 W (mod_B_d F T P z) (rows P z 0 P)).
  { rewrite <- sized_B_rows. eapply Forall2_in; [|apply rows_B; auto; lia]. intros v e He Hv. eapply within_le; [|shelve|exact Hv]. unfold basis_error. apply Rmult_le_compat_r; [rewrite u_eq; pose proof u_pos; lra|].
    assert (INR P <= INR (2 * P)) by (apply le_INR; lia). lra.
    Unshelve. unfold sized_B in He. apply in_map_iff in He. destruct He as ([p q] & <- & _). cbn [snd]. destruct p; [destruct q as [|[|q]]; cbn [size_B size_A]; try lra|destruct q; cbn [size_B]; [lra|]]; match goal with |- 0 <= growth ?a ?n => pose proof (growth_range a n); lra end. }
  assert (LP : length (rB P z 0) = P) by (rewrite rB_length; lia). assert (EP : rows P z 0 P = rB P z 0 ++ rows P z 1 (P - 1)) by (replace P with (S (P - 1)) at 2 by lia; reflexivity).
  assert (ET : rows P z 1 (P - 1) = rB P z 1 ++ rows P z 2 (P - 2)) by (replace (P - 1)%nat with (S (P - 2)) by lia; reflexivity).
  assert (LT : length (rows P z 1 (P - 1)) = ((P - 1) * P / 2)%nat).
  { pose proof (rows_tail P z (P - 1) ltac:(lia)) as X. replace (P - (P - 1))%nat with 1%nat in X by lia. apply (Nat.mul_cancel_l _ _ 2); [lia|]. rewrite X. replace (P - 1 + 1)%nat with P by lia.
    symmetry. rewrite Nat.mul_comm. apply Nat.div_exact in X || idtac. pose proof (Nat.div_mod ((P - 1) * P) 2 ltac:(lia)). assert (((P - 1) * P) mod 2 = 0)%nat; [|lia]. replace (P - 1 + 1)%nat with P in X by lia. rewrite <- X. rewrite Nat.mul_comm. apply Nat.mod_mul. lia. }
  set (base0 := rows P z 0 P ++ rB P z 1 ++ rows P z 1 (P - 1)).
  assert (F2 : Forall2 W (copy_d P ((P - 1) * P / 2) (copy_d P (P - 1) (mod_B_d F T P z))) base0).
  { pose proof (copy_rel _ P ((P - 1) * P / 2) _ _ (copy_rel _ P (P - 1) _ _ F0)) as X. replace (copyg P ((P - 1) * P / 2) (copyg P (P - 1) (rows P z 0 P))) with base0 in X; [exact X|].
    rewrite EP at 1. rewrite ET at 1. rewrite copyg_at by (rewrite ?rB_length; lia). rewrite <- ET. rewrite <- !app_assoc. rewrite copyg_at by auto. unfold base0. rewrite EP, <- !app_assoc. reflexivity. }
  set (OUT := copy_d P ((P - 1) * P / 2) (copy_d P (P - 1) (mod_B_d F T P z))) in *.
  match goal with |- Forall2 _ (snd (forr (P - 2) ?b ?s)) _ => assert (GG : forall k, (k <= P - 2)%nat -> exists pw base out, forr k b s = (pw, base, out) /\
     md (24 + 6 * k) pw (((1 - z) / 2) ^ k) 1 /\ base = length (rows P z 0 (2 + k)) /\ Forall2 W out (base0 ++ flat_map (block P z) (seq 2 k))) end.
  { intros k. induction k as [|k IH]; intros Hk.
    - do 3 eexists. split; [reflexivity|]. split; [|split; [|cbn [seq flat_map]; rewrite app_nil_r; exact F2]].
      + exists 1. split; [auto|]. eapply nd_le; [|apply nd_exact; [apply (dbl_Z 1); lia|try rewrite Rabs_R1; cbn; try rewrite Rabs_R1; try lra]]. lia.
      + cbn [Nat.add]. rewrite !rows_S, !app_length, !rB_length. cbn. lia.
    - destruct IH as (pw & base & out & E & N & Eb & Fo); [lia|]. rewrite forr_S, E. pose proof (pow_step z k pw Z ltac:(lia) N) as N'. do 3 eexists. split; [reflexivity|].
      split; [exact N'|]. split; [rewrite Eb; replace (2 + S k)%nat with (S (2 + k)) by lia; rewrite rows_snoc, app_length, rB_length; lia|].
      assert (F3 : Forall2 W (copy_d base (P - (2 + k)) (copy_d base (P - (2 + k)) out)) (base0 ++ flat_map (block P z) (seq 2 k) ++ rB P z (2 + k) ++ rB P z (2 + k))).
      { pose proof (copy_rel _ base (P - (2 + k)) _ _ (copy_rel _ base (P - (2 + k)) _ _ Fo)) as X.
        assert (ER : exists rest, base0 = rows P z 0 (2 + k) ++ rB P z (2 + k) ++ rest).
        { assert (EQ : rows P z 0 P = rows P z 0 (2 + k) ++ rB P z (2 + k) ++ rows P z (S (2 + k)) (P - 3 - k)).
          { pose proof (rows_app P z 0 (2 + k) (S (P - 3 - k))) as Y. rewrite (Nat.add_0_l (2 + k)), rows_S in Y. rewrite <- Y. f_equal. lia. }
          unfold base0. rewrite EQ. eexists. rewrite <- !app_assoc. reflexivity. }
        destruct ER as (rest & ER). rewrite ER in X. rewrite <- !app_assoc in X.
        rewrite copyg_at in X by (rewrite ?rB_length; auto). rewrite <- !app_assoc in X. rewrite copyg_at in X by (rewrite ?rB_length; auto). rewrite ER. rewrite <- !app_assoc in *. exact X. }
      set (O2 := copy_d base (P - (2 + k)) (copy_d base (P - (2 + k)) out)) in *.
      rewrite (seq_S k 2), flat_map_app. cbn [flat_map]. rewrite app_nil_r.
      match goal with |- Forall2 _ (snd (forr (P - 2) ?b ?s)) _ => assert (GI : forall j, (j <= P - 2)%nat -> md (24 + 6 * (S k + j)) (fst (forr j b s)) (((1 - z) / 2) ^ (S k + j)) 1 /\
         Forall2 W (snd (forr j b s)) ((base0 ++ flat_map (block P z) (seq 2 k) ++ rB P z (2 + k) ++ rB P z (2 + k)) ++ flat_map (pr P z (2 + k)) (seq 2 j))); [set (B' := b); set (S' := s)|] end.
      { intros j. induction j as [|j IHj]; intros Hj.
        - split; [rewrite Nat.add_0_r; exact N'|]. cbn [seq flat_map]. rewrite app_nil_r. exact F3.
        - destruct IHj as [J1 J2]; [lia|]. rewrite forr_S. set (s' := forr j B' S') in *. unfold B'. cbn [fst snd]. replace (S k + S j)%nat with (S (S k + j)) by lia.
          pose proof (pow_step z (S k + j) _ Z ltac:(lia) J1) as J3. split; [exact J3|].
          set (px := (2 + k + (2 + j) - 1)%nat). assert (Hpx : px = S (S (S k + j))) by (unfold px; lia).
          destruct (wrow_d (G (2 + k)%nat (2 + j)%nat) mn ma z px (fmul_d (fst s') (b0_d z)) (((1 - z) / 2) ^ S (S k + j)) (P - Nat.max (2 + k) (2 + j)) (snd s') Z ltac:(lia) ltac:(lia) ltac:(lia) ltac:(lia)) as (new & En & Fn); [eapply md_le; [|exact J3]; lia|].
          fold T in En. replace (2 + k + (2 + j) - 1)%nat with px by reflexivity. change (2 + k)%nat with (S (S k)) in *. change (2 + j)%nat with (S (S j)) in *. rewrite En. rewrite (seq_S j 2), flat_map_app, app_assoc. apply Forall2_app; [exact J2|]. cbn [flat_map]. rewrite app_nil_r. unfold pr. change (2 + j)%nat with (S (S j)).
          apply Forall2_map_r. eapply Forall2_in; [|exact Fn]. intros v r Hr R0. apply in_seq in Hr. apply (wrow_within P) in R0; [|lia|lia].
          replace (modPyrC (S (S k)) (S (S j)) r z) with (wmode z (((1 - z) / 2) ^ S (S k + j)) px r); [replace (size_PyrC (S (S k)) (S (S j)) r) with (wsize px r); [exact R0|]|].
          + destruct r; cbn [wsize size_PyrC]; [reflexivity|]. f_equal. lia.
          + destruct r; cbn [wmode modPyrC]; replace (S (S k) + S (S j) - 2)%nat with (S (S k + j)) by lia; [reflexivity|]. f_equal. f_equal. lia. }
      destruct (GI (P - 2)%nat ltac:(lia)) as [_ X]. unfold block. cbn [Nat.add] in *. rewrite <- !app_assoc in *. exact X. }
  destruct (GG (P - 2)%nat ltac:(lia)) as (pw & base & out & E & _ & _ & Fo). rewrite E. cbn [snd]. unfold base0 in Fo. rewrite <- !app_assoc in Fo. exact Fo.
Qed.
