From Verif Require Import L_Coord L_Jacobi L_Basis1.
From Verif Require Import M_Basis S_Basis.
From Coq Require Import Lia Lra.
From Coq Require Import List.
Import ListNotations.

(** * mod_PyrC *)
Definition Pyrval (z : R) (p q r : nat) : fl :=
  match p, q with
  | O, _ => Bval z q r
  | S O, O => Bval z 1 r
  | S O, _ => Bval z q r
  | _, O | _, S O => Bval z p r
  | _, _ => match r with
            | O => Some (((1 - z) / 2) ^ (p + q - 2))
            | S n => fmul (Some (((1 - z) / 2) ^ (p + q - 2))) (Some ((1 + z) / 2 * Jacobi (2 * p + 2 * q - 3) 1 n z)) end
  end.
Definition Pyrrow (P : nat) (z : R) (p q : nat) : list fl := map (Pyrval z p q) (seq 0 (P - Nat.max p q)).
Definition Pyrlist (P : nat) (z : R) : list fl := flat_map (fun p => flat_map (Pyrrow P z p) (seq 0 P)) (seq 0 P).
Lemma Pyrval_ok z p q r : z <> 1 -> Pyrval z p q r = Some (modPyrC p q r z).
Proof.
  intros H. unfold Pyrval, modPyrC. destruct p as [|[|p]]; [apply Bval_ok; auto|destruct q; apply Bval_ok; auto|].
  destruct q as [|[|q]]; try (apply Bval_ok; auto). destruct r; auto. cbn [fmul]. f_equal. ring.
Qed.
Lemma Pyrlist_ok P z : z <> 1 -> Pyrlist P z = map Some (listPyrC P z).
Proof.
  intros H. unfold Pyrlist, listPyrC. rewrite map_map, idx3_map. apply flat_map_ext_in. intros p _. apply flat_map_ext_in. intros q _.
  apply map_ext. intros r. apply Pyrval_ok; auto.
Qed.
Lemma pyr_row mn ma z alpha bp n out : (n <= mn + 1)%nat -> (alpha <= ma)%nat -> exists p1 p2,
  forr n (pyr_step (make_table mn ma) z alpha bp) (Some (None, None, out)) =
  Some (p1, p2, out ++ map (fun i => fmul bp (Some ((1 + z) / 2 * Jacobi alpha 1 i z))) (seq 0 n)) /\
  (1 <= n -> p2 = Some (Jacobi alpha 1 (n - 2) z))%nat /\ (2 <= n -> p1 = Some (Jacobi alpha 1 (n - 1) z))%nat.
Proof.
  intros Hn Ha. induction n as [|n IH].
  - exists None, None. cbn. rewrite app_nil_r. repeat split; intros; lia.
  - destruct IH as (p1 & p2 & E & I1 & I2); [lia|]. rewrite forr_S, E. rewrite seq_S, map_app. cbn [map]. rewrite Nat.add_0_l, app_assoc.
    set (O1 := out ++ map _ (seq 0 n)). unfold pyr_step. cbv zeta. rewrite (halve (1 + z)).
    destruct n as [|[|n]]; cbn [Nat.eqb Nat.add].
    + exists p1, (Some 1). split; [|split; intros; [|lia]].
      * rewrite Jacobi_0, Rmult_1_r. auto.
      * change (1 - 2)%nat with O. rewrite Jacobi_0. auto.
    + exists (Some (Jacobi alpha 1 1 z)), p2. rewrite Ja11. split; [|split; intros].
      * rewrite fmul_comm, fmul_assoc. auto.
      * rewrite I1 by lia. auto.
      * auto.
    + rewrite I1, I2 by lia. replace (S (S n) - 2)%nat with n by lia. replace (S (S n) - 1)%nat with (S n) by lia.
      replace (S (S (S n)) - 1)%nat with (S (S n)) by lia. rewrite recur_ok by lia.
      exists (Some (Jacobi alpha 1 (S (S n)) z)), (Some (Jacobi alpha 1 (S n) z)). split; [|split; intros].
      * rewrite (fmul_comm (Some _)), fmul_assoc. auto.
      * do 2 f_equal; lia.
      * do 2 f_equal; lia.
Qed.
Lemma seq_mid P p k : (p + k <= P)%nat -> seq 0 P = seq 0 p ++ seq p k ++ seq (p + k) (P - p - k).
Proof. intros H. rewrite <- seq_app, <- (seq_app p _ 0). f_equal. lia. Qed.
Lemma copy_rows P z p k rest n : (p + k <= P)%nat -> n = length (flat_map (Brow P z) (seq p k)) ->
  copy_range (length (flat_map (Brow P z) (seq 0 p))) n (Blist P z ++ rest) = Some ((Blist P z ++ rest) ++ flat_map (Brow P z) (seq p k)).
Proof.
  intros H ->. unfold copy_range. set (L := Blist P z ++ rest).
  assert (E : L = flat_map (Brow P z) (seq 0 p) ++ flat_map (Brow P z) (seq p k) ++ (flat_map (Brow P z) (seq (p + k) (P - p - k)) ++ rest)).
  { unfold L, Blist. rewrite (seq_mid P p k H) at 1. rewrite !flat_map_app, !app_assoc. auto. }
  rewrite (proj2 (Nat.leb_le _ _)) by (rewrite E, !app_length; lia). do 2 f_equal.
  rewrite E, skipn_app, skipn_all, Nat.sub_diag. cbn [skipn app]. rewrite firstn_app, firstn_all, Nat.sub_diag. cbn [firstn]. rewrite app_nil_r. auto.
Qed.
Lemma Brow_length P z p : length (Brow P z p) = (P - p)%nat.
Proof. unfold Brow. rewrite map_length, seq_length. auto. Qed.
Lemma Brows_tail P z : (1 <= P)%nat -> length (flat_map (Brow P z) (seq 1 (P - 1))) = ((P - 1) * P / 2)%nat.
Proof.
  intros H. assert (G : forall k, (k < P)%nat -> (2 * length (flat_map (Brow P z) (seq (P - k) k)) = k * (k + 1))%nat).
  { induction k; intros Hk; [auto|]. cbn [seq]. cbn [flat_map]. rewrite app_length, Brow_length.
    replace (S (P - S k)) with (P - k)%nat by lia. replace (P - (P - S k))%nat with (S k) by lia. rewrite Nat.mul_add_distr_l, IHk by lia. lia. }
  specialize (G (P - 1)%nat ltac:(lia)). replace (P - (P - 1))%nat with 1%nat in G by lia. replace (P - 1 + 1)%nat with P in G by lia.
  rewrite <- G, Nat.mul_comm, Nat.div_mul; lia.
Qed.
Lemma Pyrrow_split P z p : (2 <= p < P)%nat -> flat_map (Pyrrow P z p) (seq 0 P) = Brow P z p ++ Brow P z p ++ flat_map (Pyrrow P z p) (seq 2 (P - 2)).
Proof.
  intros H. replace P with (S (S (P - 2))) at 2 by lia. cbn [seq flat_map]. destruct p as [|[|p]]; try lia. reflexivity.
Qed.
Lemma flat_map_shift {A} (f : nat -> list A) a n : flat_map f (seq a n) = flat_map (fun i => f (a + i)%nat) (seq 0 n).
Proof.
  induction n; [auto|]. rewrite !seq_S, !flat_map_app, IHn. cbn [flat_map]. auto.
Qed.
Lemma mod_PyrC_gen mn ma P z : (2 <= P <= mn + 2)%nat -> (1 <= ma)%nat -> (4 * P <= ma + 7)%nat -> mod_PyrC (make_table mn ma) P z = Some (Pyrlist P z).
Proof.
  intros HP Ha1 Ha. unfold mod_PyrC. cbv zeta. rewrite mod_B_gen by lia. rewrite !halve.
  assert (L1 : P = length (flat_map (Brow P z) (seq 0 1))) by (cbn [seq flat_map]; rewrite app_nil_r, Brow_length; lia).
  assert (C1 : copy_range P (P - 1) (Blist P z) = Some (Blist P z ++ Brow P z 1)).
  { rewrite L1 at 1. pose proof (copy_rows P z 1 1 [] (P - 1)) as C. rewrite app_nil_r in C. cbn [seq flat_map] in C. rewrite !app_nil_r in C.
    cbn [seq flat_map]. rewrite app_nil_r. apply C; [lia|]. rewrite Brow_length; auto. }
  rewrite C1.
  assert (C2 : copy_range P ((P - 1) * P / 2) (Blist P z ++ Brow P z 1) = Some ((Blist P z ++ Brow P z 1) ++ flat_map (Brow P z) (seq 1 (P - 1)))).
  { rewrite L1 at 1. apply copy_rows; [lia|]. symmetry. apply Brows_tail. lia. }
  rewrite C2. clear C1 C2.
  set (T := make_table mn ma).
  assert (E0 : Blist P z = flat_map (Pyrrow P z 0) (seq 0 P)).
  { unfold Blist. apply flat_map_ext_in. intros q _. unfold Brow, Pyrrow. rewrite Nat.max_0_l. auto. }
  assert (E1 : Brow P z 1 ++ flat_map (Brow P z) (seq 1 (P - 1)) = flat_map (Pyrrow P z 1) (seq 0 P)).
  { transitivity (flat_map (Pyrrow P z 1) (seq 0 (S (P - 1)))); [|do 2 f_equal; lia]. cbn [seq flat_map]. f_equal.
    apply flat_map_ext_in. intros q Hq. apply in_seq in Hq. unfold Brow, Pyrrow. rewrite Nat.max_r by lia. destruct q; [lia|]. auto. }
  set (out0 := (Blist P z ++ Brow P z 1) ++ flat_map (Brow P z) (seq 1 (P - 1))).
  assert (E2 : out0 = flat_map (fun p => flat_map (Pyrrow P z p) (seq 0 P)) (seq 0 2)).
  { unfold out0. rewrite <- app_assoc, E1, E0. cbn [seq flat_map]. rewrite app_nil_r. auto. }
  match goal with |- match forr ?n ?b ?s with _ => _ end = _ =>
    assert (G : exists rp base, forr n b s = Some (rp, base, flat_map (fun p => flat_map (Pyrrow P z p) (seq 0 P)) (seq 0 (2 + n)))) end.
  { match goal with |- exists rp base, forr ?n ?b ?s = _ =>
      assert (G : forr n b s = Some (Some (((1 - z) / 2) ^ n), length (flat_map (Brow P z) (seq 0 (2 + n))), flat_map (fun p => flat_map (Pyrrow P z p) (seq 0 P)) (seq 0 (2 + n)))) end.
    { apply (forr_inv (fun k st => st = Some (Some (((1 - z) / 2) ^ k), length (flat_map (Brow P z) (seq 0 (2 + k))), flat_map (fun p => flat_map (Pyrrow P z p) (seq 0 P)) (seq 0 (2 + k))))).
      - change (2 + 0)%nat with 2%nat. rewrite <- E2. do 3 f_equal. cbn [seq flat_map]. rewrite app_nil_r, app_length, !Brow_length. lia.
      - intros k s Hk ->. set (p := (2 + k)%nat). cbn [fmul].
        assert (EB : flat_map (fun p => flat_map (Pyrrow P z p) (seq 0 P)) (seq 0 p) =
                     Blist P z ++ flat_map (fun p => flat_map (Pyrrow P z p) (seq 0 P)) (seq 1 (p - 1))).
        { unfold p at 1. cbn [Nat.add seq flat_map]. rewrite <- E0. replace (p - 1)%nat with (S k) by (unfold p; lia). auto. }
        rewrite EB.
        assert (Hp : (p < P)%nat) by (unfold p; lia).
        pose proof (fun rest => copy_rows P z p 1 rest (P - p) ltac:(lia)) as C. cbn [seq flat_map] in C. rewrite app_nil_r in C. rewrite Brow_length in C.
        rewrite C by auto. rewrite <- app_assoc, C by auto. rewrite <- !app_assoc. rewrite <- EB at 2 || idtac.
        set (pre := flat_map _ (seq 1 (p - 1))).
        set (out1 := Blist P z ++ pre ++ Brow P z p ++ Brow P z p).
        match goal with |- match forr ?n ?b ?s with _ => _ end = _ =>
          assert (G : forr n b s = Some (Some (((1 - z) / 2) ^ (S k + n)), out1 ++ flat_map (fun j => Pyrrow P z p (2 + j)) (seq 0 n))) end.
        { apply (forr_inv (fun j st => st = Some (Some (((1 - z) / 2) ^ (S k + j)), out1 ++ flat_map (fun j => Pyrrow P z p (2 + j)) (seq 0 j)))).
          - cbn [seq flat_map]. rewrite app_nil_r, Nat.add_0_r. do 3 f_equal. cbn [pow]. ring.
          - intros j s Hj ->. cbn [fmul]. set (q := (2 + j)%nat).
            assert (Ep : ((1 - z) / 2) ^ (S k + j) * ((1 - z) / 2) = ((1 - z) / 2) ^ (p + q - 2)).
            { replace (p + q - 2)%nat with (S (S k + j)) by (unfold p, q; lia). cbn [pow]. ring. }
            rewrite Ep.
            destruct (pyr_row mn ma z (2 * p + 2 * q - 3) (Some (((1 - z) / 2) ^ (p + q - 2))) (P - Nat.max p q - 1)
              ((out1 ++ flat_map (fun j => Pyrrow P z p (2 + j)) (seq 0 j)) ++ [Some (((1 - z) / 2) ^ (p + q - 2))])) as (p1 & p2 & E & _);
              [lia|unfold p, q; lia|].
            fold T in E. rewrite E. do 2 f_equal.
            + do 2 f_equal. unfold p, q. lia.
            + rewrite seq_S, flat_map_app. cbn [flat_map]. rewrite app_nil_r, <- !app_assoc. do 2 f_equal. change (2 + (0 + j))%nat with q.
              unfold Pyrrow. assert (Em : exists m, (P - Nat.max p q)%nat = S m) by (exists (P - Nat.max p q - 1)%nat; unfold p, q; lia).
              destruct Em as (m & Em). rewrite Em. replace (S m - 1)%nat with m by lia. cbn [seq map]. rewrite <- seq_shift, map_map.
              destruct p as [|[|p']] eqn:Ep'; [discriminate|discriminate|]. destruct q as [|[|q']] eqn:Eq'; [discriminate|discriminate|]. reflexivity. }
        rewrite G. f_equal. f_equal; [f_equal|].
        + f_equal. cbn [pow]. ring.
        + replace (2 + S k)%nat with (S p) by (unfold p; lia). rewrite seq_S, flat_map_app, app_length. cbn [flat_map]. rewrite app_nil_r, Brow_length. auto.
        + replace (2 + S k)%nat with (S p) by (unfold p; lia). rewrite (seq_S p), flat_map_app. cbn [flat_map]. rewrite app_nil_r, EB, Nat.add_0_l.
          rewrite Pyrrow_split by (unfold p; lia). unfold out1. rewrite <- !app_assoc. do 4 f_equal. symmetry. apply flat_map_shift. }
    eauto. }
  destruct G as (rp & base & ->). replace (2 + (P - 2))%nat with P by lia. auto.
Qed.
