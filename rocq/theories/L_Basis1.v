From Verif Require Import L_Coord L_Jacobi.
From Verif Require Import M_Basis S_Basis.
From Coq Require Import Lia Lra.
From Coq Require Import List.
Import ListNotations.

(** * Loops that append *)
Lemma forr_S {A} n (body : nat -> A -> A) st : forr (S n) body st = body n (forr n body st).
Proof. unfold forr. rewrite seq_S, fold_left_app. reflexivity. Qed.
Lemma forr_ext {A} n (f g : nat -> A -> A) st : (forall i s, (i < n)%nat -> f i s = g i s) -> forr n f st = forr n g st.
Proof. induction n; intros H; [auto|]. rewrite !forr_S, IHn by (intros; apply H; lia). apply H. lia. Qed.
Lemma forr_app {A} n (body : nat -> list A -> list A) (h : nat -> list A) st :
  (forall i s, (i < n)%nat -> body i s = s ++ h i) -> forr n body st = st ++ flat_map h (seq 0 n).
Proof.
  induction n; intros H; [cbn; rewrite app_nil_r; auto|]. rewrite forr_S, IHn by (intros; apply H; lia). rewrite H by lia.
  rewrite seq_S, flat_map_app. cbn [flat_map]. rewrite app_nil_r, app_assoc. auto.
Qed.
Lemma flat_map_one {A B} (f : A -> B) l : flat_map (fun x => [f x]) l = map f l.
Proof. induction l; cbn; congruence. Qed.
Lemma forr_push {A} n (f : nat -> A) st : forr n (fun i => push (f i)) st = st ++ map f (seq 0 n).
Proof. rewrite (forr_app n _ (fun i => [f i])) by auto. rewrite flat_map_one. auto. Qed.
Lemma flat_map_ext_in {A B} (f g : A -> list B) l : (forall x, In x l -> f x = g x) -> flat_map f l = flat_map g l.
Proof. induction l; cbn; intros H; auto. rewrite H, IHl; auto. Qed.
Lemma map_flat_map {A B C} (g : B -> C) (f : A -> list B) l : map g (flat_map f l) = flat_map (fun x => map g (f x)) l.
Proof. induction l; cbn; auto. rewrite map_app, IHl. auto. Qed.
Lemma idx2_map {A} (g : nat * nat -> A) P n1 : map g (idx2 P n1) = flat_map (fun p => map (fun q => g (p, q)) (seq 0 (n1 p))) (seq 0 P).
Proof. unfold idx2. rewrite map_flat_map. apply flat_map_ext_in. intros p _. apply map_map. Qed.
Lemma idx3_map {A} (g : nat * nat * nat -> A) P n1 n2 :
  map g (idx3 P n1 n2) = flat_map (fun p => flat_map (fun q => map (fun r => g (p, q, r)) (seq 0 (n2 p q))) (seq 0 (n1 p))) (seq 0 P).
Proof.
  unfold idx3. rewrite map_flat_map. apply flat_map_ext_in. intros p _. rewrite map_flat_map. apply flat_map_ext_in. intros q _. apply map_map.
Qed.
Lemma forr_app2 {A} P (n1 : nat -> nat) (body : nat -> nat -> list A -> list A) (g : nat -> nat -> A) :
  (forall p q s, (p < P)%nat -> (q < n1 p)%nat -> body p q s = s ++ [g p q]) ->
  forr P (fun p => forr (n1 p) (body p)) [] = map (fun '(p, q) => g p q) (idx2 P n1).
Proof.
  intros H. rewrite idx2_map. rewrite (forr_app P _ (fun p => map (fun q => g p q) (seq 0 (n1 p)))); [auto|].
  intros p s Hp. rewrite (forr_app (n1 p) _ (fun q => [g p q])) by (intros; apply H; auto). rewrite flat_map_one. auto.
Qed.
Lemma forr_app3 {A} P (n1 : nat -> nat) (n2 : nat -> nat -> nat) (body : nat -> nat -> nat -> list A -> list A) (g : nat -> nat -> nat -> A) :
  (forall p q r s, (p < P)%nat -> (q < n1 p)%nat -> (r < n2 p q)%nat -> body p q r s = s ++ [g p q r]) ->
  forr P (fun p => forr (n1 p) (fun q => forr (n2 p q) (body p q))) [] = map (fun '(p, q, r) => g p q r) (idx3 P n1 n2).
Proof.
  intros H. rewrite idx3_map. rewrite (forr_app P _ (fun p => flat_map (fun q => map (fun r => g p q r) (seq 0 (n2 p q))) (seq 0 (n1 p)))); [auto|].
  intros p s Hp. rewrite (forr_app (n1 p) _ (fun q => map (fun r => g p q r) (seq 0 (n2 p q)))); [auto|].
  intros q s' Hq. rewrite (forr_app (n2 p q) _ (fun r => [g p q r])) by (intros; apply H; auto). rewrite flat_map_one. auto.
Qed.

(** * The reference functions *)
Lemma halve x : 1/2 * x = x / 2. Proof. field. Qed.
Lemma modA_ok p z : eval_modA_i p z = Some (modA p z).
Proof.
  unfold eval_modA_i. cbv zeta. rewrite !halve. destruct p as [|[|p]]; cbn [Nat.eqb modA]; auto.
  rewrite jacobi_ok. replace (S (S p) - 2)%nat with p by lia. reflexivity.
Qed.
Lemma modB_ok p q z : eval_modB_ij p q z = Some (modB p q z).
Proof.
  unfold eval_modB_ij. rewrite !halve. destruct p; cbn [Nat.eqb modB]; [apply modA_ok|]. destruct q; cbn [Nat.eqb]; auto.
  rewrite jacobi_ok. unfold fmul. f_equal. replace (S q - 1)%nat with q by lia. field.
Qed.
Lemma modC_ok p q r z : eval_modC_ijk p q r z = Some (modC p q r z).
Proof. apply modB_ok. Qed.
Lemma modPyrC_ok p q r z : eval_modPyrC_ijk p q r z = Some (modPyrC p q r z).
Proof.
  unfold eval_modPyrC_ijk. rewrite !halve.
  destruct p as [|[|p]]; cbn [Nat.eqb modPyrC]; [apply modB_ok| |].
  - destruct q; cbn [Nat.eqb]; apply modB_ok.
  - destruct q as [|[|q]]; cbn [Nat.ltb Nat.leb]; try apply modB_ok. destruct r; cbn [Nat.eqb]; auto.
    rewrite jacobi_ok. unfold fmul. do 2 f_equal. f_equal. lia.
Qed.
Lemma eval_modA_list P z : eval_modA P z = map Some (listA P z).
Proof. unfold eval_modA, listA. rewrite forr_push, map_map. apply map_ext. intros. apply modA_ok. Qed.
Lemma eval_modB_list P z : eval_modB P z = map Some (listB P z).
Proof.
  unfold eval_modB, listB. rewrite (forr_app2 P (fun p => (P - p)%nat) _ (fun p q => Some (modB p q z))).
  - rewrite map_map. apply map_ext. intros [p q]. auto.
  - intros. unfold push. rewrite modB_ok. auto.
Qed.
Lemma eval_modC_list P z : eval_modC P z = map Some (listC P z).
Proof.
  unfold eval_modC, listC. rewrite (forr_app3 P (fun p => (P - p)%nat) (fun p q => (P - p - q)%nat) _ (fun p q r => Some (modC p q r z))).
  - rewrite map_map. apply map_ext. intros [[p q] r]. auto.
  - intros. unfold push. rewrite modC_ok. auto.
Qed.
Lemma eval_modPyrC_list P z : eval_modPyrC P z = map Some (listPyrC P z).
Proof.
  unfold eval_modPyrC, listPyrC. rewrite (forr_app3 P (fun p => P) (fun p q => (P - Nat.max p q)%nat) _ (fun p q r => Some (modPyrC p q r z))).
  - rewrite map_map. apply map_ext. intros [[p q] r]. auto.
  - intros. unfold push. rewrite modPyrC_ok. auto.
Qed.

(** * The tables *)
Lemma nth_error_flat_map {A B} (f : A -> list B) n l i j x :
  (forall x, In x l -> length (f x) = n) -> nth_error l i = Some x -> (j < n)%nat -> nth_error (flat_map f l) (n * i + j) = nth_error (f x) j.
Proof.
  revert i. induction l as [|a l IH]; intros i Hl Hi Hj; [destruct i; discriminate|]. cbn [flat_map].
  destruct i as [|i]; cbn [nth_error] in Hi.
  - injection Hi as ->. rewrite Nat.mul_0_r, Nat.add_0_l, nth_error_app1; auto. rewrite Hl; [auto|left; auto].
  - rewrite nth_error_app2 by (rewrite Hl by (left; auto); nia). rewrite (Hl a) by (left; auto).
    replace (n * S i + j - n)%nat with (n * i + j)%nat by nia. apply IH; auto. intros y Hy. apply Hl. right; auto.
Qed.
Lemma nth_error_seq n i : (i < n)%nat -> nth_error (seq 0 n) i = Some i.
Proof.
  intros H. rewrite (nth_error_nth' _ O) by (rewrite seq_length; auto). rewrite seq_nth by auto. auto.
Qed.
Lemma nth_error_map_seq {A} (f : nat -> A) n i : (i < n)%nat -> nth_error (map f (seq 0 n)) i = Some (f i).
Proof. intros H. rewrite nth_error_map, nth_error_seq by auto. auto. Qed.
Lemma jt_data_eq mn ma : jt_data (make_table mn ma) = flat_map (fun a => map (table_entry a) (seq 0 (mn + 1))) (seq 0 (ma + 1)).
Proof.
  unfold make_table. cbn [jt_data]. rewrite (forr_app (ma + 1) _ (fun a => map (table_entry a) (seq 0 (mn + 1)))); [auto|].
  intros a s _. rewrite (forr_app (mn + 1) _ (fun nx => [table_entry a nx])) by auto. rewrite flat_map_one. auto.
Qed.
Lemma jt_length mn ma : length (jt_data (make_table mn ma)) = ((mn + 1) * (ma + 1))%nat.
Proof.
  rewrite jt_data_eq. generalize (ma + 1)%nat. intros k. induction k; [cbn; lia|]. rewrite seq_S, flat_map_app, app_length, IHk. cbn [flat_map].
  rewrite app_nil_r, map_length, seq_length. lia.
Qed.
Lemma jt_read mn ma alpha nx : (nx <= mn)%nat -> (alpha <= ma)%nat ->
  nth_error (jt_data (make_table mn ma)) (jt_stride (make_table mn ma) * alpha + nx) = Some (table_entry alpha nx).
Proof.
  intros H1 H2. rewrite jt_data_eq. cbn [jt_stride make_table].
  rewrite (nth_error_flat_map _ (mn + 1) _ alpha nx alpha).
  - apply nth_error_map_seq. lia.
  - intros. rewrite map_length, seq_length. auto.
  - apply nth_error_seq. lia.
  - lia.
Qed.
Lemma table_entry_ok alpha n z : exists c10 c11 c2, table_entry alpha (S (S n)) = Some (c10, c11, c2) /\
  c10 * Jacobi alpha 1 (S n) z * z + c11 * Jacobi alpha 1 (S n) z + c2 * Jacobi alpha 1 n z = Jacobi alpha 1 (S (S n)) z.
Proof.
  unfold table_entry. cbv zeta. pose proof (pos_INR n). pose proof (pos_INR alpha).
  rewrite rdiv_ok. 2:{ rewrite !S_INR. repeat apply Rmult_integral_contrapositive_currified; lra. }
  do 3 eexists. split; [reflexivity|]. rewrite (Jacobi_SS alpha 1 n). unfold recA, recB, recC, recD. rewrite !S_INR. simpl INR.
  field. repeat split; lra.
Qed.
Lemma table_entry_indep alpha n : exists c10 c11 c2, table_entry alpha (S (S n)) = Some (c10, c11, c2) /\
  forall z, c10 * Jacobi alpha 1 (S n) z * z + c11 * Jacobi alpha 1 (S n) z + c2 * Jacobi alpha 1 n z = Jacobi alpha 1 (S (S n)) z.
Proof.
  destruct (table_entry_ok alpha n 0) as (c10 & c11 & c2 & E & _). exists c10, c11, c2. split; [auto|]. intros z.
  destruct (table_entry_ok alpha n z) as (d10 & d11 & d2 & E' & H). rewrite E in E'. injection E' as <- <- <-. auto.
Qed.
Lemma recur_ok mn ma alpha n z : (S (S n) <= mn)%nat -> (alpha <= ma)%nat ->
  recur (make_table mn ma) alpha (S (S n)) z (Some (Jacobi alpha 1 (S n) z)) (Some (Jacobi alpha 1 n z)) = Some (Some (Jacobi alpha 1 (S (S n)) z)).
Proof.
  intros H1 H2. unfold recur. rewrite jt_read by auto. destruct (table_entry_ok alpha n z) as (c10 & c11 & c2 & -> & E). rewrite E. auto.
Qed.
Lemma host_ok mn ma n alpha z : (n <= mn)%nat -> (alpha <= ma)%nat -> host_evaluate (make_table mn ma) n alpha z = HVal (Some (Jacobi alpha 1 n z)).
Proof.
  intros H1 H2. unfold host_evaluate. cbn [jt_max_n jt_max_alpha make_table].
  rewrite (proj2 (Nat.leb_le _ _) H1), (proj2 (Nat.leb_le _ _) H2). cbn [negb].
  destruct n as [|[|n]]; cbn [Nat.eqb]; [rewrite Jacobi_0; auto|rewrite Jacobi_1; do 2 f_equal; simpl INR; field|].
  set (p1 := 1/2 * _). assert (E1 : p1 = Jacobi alpha 1 1 z) by (unfold p1; rewrite Jacobi_1; simpl INR; field).
  assert (G : forr (S (S n) - 1) (host_step (make_table mn ma) alpha z) (Some (Some (p1, 1))) = Some (Some (Jacobi alpha 1 (S (S n)) z, Jacobi alpha 1 (S n) z))).
  { replace (S (S n) - 1)%nat with (S n) by lia.
    apply (forr_inv (fun i st => st = Some (Some (Jacobi alpha 1 (S i) z, Jacobi alpha 1 i z)))); [rewrite E1, Jacobi_0; auto|].
    intros i s Hi ->. unfold host_step. cbv zeta. rewrite jt_read by lia. change (2 + i)%nat with (S (S i)).
    destruct (table_entry_ok alpha i z) as (c10 & c11 & c2 & -> & E). rewrite E. auto. }
  rewrite G. auto.
Qed.
Lemma host_bad mn ma n alpha z : (mn < n)%nat \/ (ma < alpha)%nat -> host_evaluate (make_table mn ma) n alpha z = HBad.
Proof.
  intros H. unfold host_evaluate. cbn [jt_max_n jt_max_alpha make_table]. destruct (Nat.leb_spec n mn); cbn [negb]; auto.
  destruct (Nat.leb_spec alpha ma); cbn [negb]; auto. lia.
Qed.

(** * Rows *)
Definition rowval (z : R) (px : nat) (bp : fl) (q : nat) : fl :=
  match px with
  | O => Some (modA q z)
  | S _ => match q with O => bp | S n => fmul bp (Some ((1 + z) / 2 * Jacobi (2 * px - 1) 1 n z)) end
  end.
Lemma fmul_assoc a b c : fmul (fmul a b) c = fmul a (fmul b c).
Proof. destruct a, b, c; cbn; auto. f_equal. ring. Qed.
Lemma fmul_comm a b : fmul a b = fmul b a.
Proof. destruct a, b; cbn; auto. f_equal. ring. Qed.
Lemma J111 z : 2 + 2 * (z - 1) = Jacobi 1 1 1 z.
Proof. rewrite Jacobi_1. simpl INR. field. Qed.
Lemma Ja11 alpha z : 1/2 * (2 * (INR alpha + 1) + (INR alpha + 3) * (z - 1)) = Jacobi alpha 1 1 z.
Proof. rewrite Jacobi_1. simpl INR. field. Qed.
Lemma row_ok mn ma z px bp n out : (n <= mn + 2)%nat -> (1 <= ma)%nat -> (2 * px - 1 <= ma)%nat ->
  mod_row (make_table mn ma) z px bp n out = Some (out ++ map (rowval z px bp) (seq 0 n)).
Proof.
  intros Hn Ha1 Ha. unfold mod_row. set (T := make_table mn ma).
  assert (G : exists p1 p2, forr n (row_step T z px bp) (Some (None, None, out)) = Some (p1, p2, out ++ map (rowval z px bp) (seq 0 n)) /\
     (px = O -> (3 <= n -> p2 = Some (Jacobi 1 1 (n - 4) z)) /\ (4 <= n -> p1 = Some (Jacobi 1 1 (n - 3) z)))%nat /\
     (px <> O -> (2 <= n -> p2 = Some (Jacobi (2 * px - 1) 1 (n - 3) z)) /\ (3 <= n -> p1 = Some (Jacobi (2 * px - 1) 1 (n - 2) z)))%nat).
  { induction n as [|n IH].
    - exists None, None. cbn. rewrite app_nil_r. repeat split; intros; lia.
    - destruct IH as (p1 & p2 & E & I0 & I1); [lia|]. rewrite forr_S, E. rewrite seq_S, map_app. cbn [map]. rewrite Nat.add_0_l, app_assoc.
      set (O1 := out ++ map (rowval z px bp) (seq 0 n)). unfold row_step. cbv zeta. rewrite !halve.
      destruct px as [|px]; cbn [Nat.eqb].
      + specialize (I0 eq_refl). destruct I0 as [I0 I0']. clear I1.
        destruct n as [|[|[|[|n]]]]; cbn [Nat.eqb].
        * exists p1, p2. split; [auto|]. split; [intros _; split; intros; lia|congruence].
        * exists p1, p2. split; [auto|]. split; [intros _; split; intros; lia|congruence].
        * exists p1, (Some 1). split; [|split; [intros _; split; intros; [|lia]|congruence]].
          -- cbn [rowval modA]. rewrite Jacobi_0, Rmult_1_r. auto.
          -- change (3 - 4)%nat with O. rewrite Jacobi_0. auto.
        * exists (Some (2 + 2 * (z - 1))), p2. rewrite J111. split; [|split; [intros _; split; intros|congruence]].
          -- cbn [rowval modA]. auto.
          -- rewrite I0 by lia. auto.
          -- auto.
        * rewrite I0 by lia. rewrite I0' by lia.
          replace (S (S (S (S n))) - 4)%nat with n by lia. replace (S (S (S (S n))) - 3)%nat with (S n) by lia.
          replace (S (S (S (S n))) - 2)%nat with (S (S n)) by lia. unfold T. rewrite recur_ok by lia.
          exists (Some (Jacobi 1 1 (S (S n)) z)), (Some (Jacobi 1 1 (S n) z)). split; [|split; [intros _; split; intros|congruence]].
          -- cbn [rowval modA]. do 2 f_equal. f_equal. f_equal. f_equal. ring.
          -- do 2 f_equal; lia.
          -- do 2 f_equal; lia.
      + specialize (I1 ltac:(congruence)). destruct I1 as [I1 I1']. clear I0. set (al := (2 * S px - 1)%nat) in *.
        destruct n as [|[|[|n]]]; cbn [Nat.eqb].
        * exists p1, p2. split; [auto|]. split; [congruence|intros _; split; intros; lia].
        * exists p1, (Some 1). split; [|split; [congruence|intros _; split; intros; [|lia]]].
          -- cbn [rowval]. rewrite Jacobi_0, Rmult_1_r. auto.
          -- change (2 - 3)%nat with O. rewrite Jacobi_0. auto.
        * exists (Some (Jacobi al 1 1 z)), p2. split; [|split; [congruence|intros _; split; intros]].
          -- rewrite <- (halve (2 * (INR al + 1) + (INR al + 3) * (z - 1))), Ja11. cbn [rowval]. fold al. rewrite fmul_assoc. auto.
          -- rewrite I1 by lia. auto.
          -- auto.
        * rewrite I1 by lia. rewrite I1' by lia. replace (S (S (S n)) - 3)%nat with n by lia. replace (S (S (S n)) - 2)%nat with (S n) by lia.
          replace (S (S (S n)) - 1)%nat with (S (S n)) by lia. unfold T. rewrite recur_ok by lia.
          exists (Some (Jacobi al 1 (S (S n)) z)), (Some (Jacobi al 1 (S n) z)). split; [|split; [congruence|intros _; split; intros]].
          -- cbn [rowval]. fold al. rewrite fmul_assoc. auto.
          -- do 2 f_equal; lia.
          -- do 2 f_equal; lia. }
  destruct G as (p1 & p2 & E & _). fold T. rewrite E. auto.
Qed.
(** The power of b0 as computed: not finite at z = 1. *)
Definition pwz (z : R) (p : nat) : fl := if Req_bool z 1 then None else Some (((1 - z) / 2) ^ p).
Definition Bval (z : R) (p q : nat) : fl := rowval z p (pwz z p) q.
Lemma pwz_0 z : fmul (rdiv 1 ((1 - z) / 2)) (Some ((1 - z) / 2)) = pwz z 0.
Proof.
  unfold pwz. destruct (Req_bool_spec z 1) as [->|H].
  - unfold rdiv. rewrite Req_bool_true by field. auto.
  - assert (1 - z <> 0) by lra. rewrite rdiv_ok by (intros E; apply H0; lra). cbn. f_equal. field. auto.
Qed.
Lemma pwz_S z p : fmul (pwz z p) (Some ((1 - z) / 2)) = pwz z (S p).
Proof. unfold pwz. destruct (Req_bool z 1); auto. cbn. f_equal. ring. Qed.
Lemma Bval_ok z p q : z <> 1 -> Bval z p q = Some (modB p q z).
Proof.
  intros H. unfold Bval, pwz. rewrite Req_bool_false by auto. destruct p; cbn [rowval modB]; auto. destruct q; auto. cbn [fmul]. f_equal. ring.
Qed.
Lemma Bval_1 p q : Bval 1 p q = match p with O => Some (modA q 1) | _ => None end.
Proof. unfold Bval, pwz. rewrite Req_bool_true by auto. destruct p; auto. cbn [rowval]. destruct q; auto. Qed.
Definition Brow (P : nat) (z : R) (p : nat) : list fl := map (Bval z p) (seq 0 (P - p)).
Definition Blist (P : nat) (z : R) : list fl := flat_map (Brow P z) (seq 0 P).
Lemma mod_B_gen mn ma P z : (P <= mn + 2)%nat -> (1 <= ma)%nat -> (2 * P <= ma + 3)%nat -> mod_B (make_table mn ma) P z = Some (Blist P z).
Proof.
  intros HP Ha1 Ha. unfold mod_B. cbv zeta. rewrite !halve.
  match goal with |- match forr P ?b ?s with _ => _ end = _ =>
    assert (G : exists bp, forr P b s = Some (bp, Blist P z) /\ fmul bp (Some ((1 - z) / 2)) = pwz z P) end.
  { unfold Blist. set (T := make_table mn ma).
    apply (forr_inv (fun k st => exists bp, st = Some (bp, flat_map (Brow P z) (seq 0 k)) /\ fmul bp (Some ((1 - z) / 2)) = pwz z k)).
    - exists (rdiv 1 ((1 - z) / 2)). split; [auto|apply pwz_0].
    - intros k s Hk (bp & -> & Hb). rewrite Hb. unfold T. rewrite row_ok by lia. exists (pwz z k). split; [|apply pwz_S].
      rewrite seq_S, flat_map_app. cbn [flat_map]. rewrite app_nil_r. auto. }
  destruct G as (bp & -> & _). auto.
Qed.
Lemma Blist_ok P z : z <> 1 -> Blist P z = map Some (listB P z).
Proof.
  intros H. unfold Blist, listB. rewrite map_map, idx2_map. apply flat_map_ext_in. intros p _. apply map_ext. intros q. apply Bval_ok; auto.
Qed.
Lemma mod_A_ok mn ma P z : (2 <= P <= mn + 2)%nat -> (1 <= ma)%nat -> mod_A (make_table mn ma) P z = Some (map Some (listA P z)).
Proof.
  intros HP Ha1. unfold mod_A. cbv zeta. rewrite !halve, J111.
  destruct P as [|[|[|[|P]]]]; try lia; cbn [Nat.ltb Nat.leb].
  - reflexivity.
  - unfold listA. cbn [seq map modA app forr fold_left Nat.sub]. unfold forr. cbn [seq fold_left]. rewrite Jacobi_0, Rmult_1_r. auto.
  - change ([Some ((1 - z) / 2); Some ((1 + z) / 2)] ++ [Some ((1 - z) / 2 * ((1 + z) / 2))]) with
      [Some ((1 - z) / 2); Some ((1 + z) / 2); Some ((1 - z) / 2 * ((1 + z) / 2))].
    replace (S (S (S (S P))) - 4)%nat with P by lia.
    match goal with |- match forr P ?b ?s with _ => _ end = _ =>
      assert (G : forr P b s = Some (Some (Jacobi 1 1 (S P) z), Some (Jacobi 1 1 P z), map Some (listA (S (S (S (S P)))) z))) end.
    { set (T := make_table mn ma).
      apply (forr_inv (fun k st => st = Some (Some (Jacobi 1 1 (S k) z), Some (Jacobi 1 1 k z), map Some (listA (S (S (S (S k)))) z)))).
      - unfold listA. cbn [seq map modA app]. rewrite Jacobi_0, Rmult_1_r. auto.
      - intros k s Hk ->. unfold T. replace (4 + k - 2)%nat with (S (S k)) by lia. rewrite recur_ok by lia.
        f_equal. f_equal. unfold listA. rewrite (seq_S (S (S (S (S k))))), !map_app. cbn [map]. rewrite Nat.add_0_l. f_equal. }
    rewrite G. auto.
Qed.
Definition Clist (P : nat) (z : R) : list fl := flat_map (fun p => flat_map (fun q => map (Bval z (p + q)) (seq 0 (P - p - q))) (seq 0 (P - p))) (seq 0 P).
Lemma mod_C_gen mn ma P z : (P <= mn + 2)%nat -> (1 <= ma)%nat -> (2 * P <= ma + 3)%nat -> mod_C (make_table mn ma) P z = Some (Clist P z).
Proof.
  intros HP Ha1 Ha. unfold mod_C. cbv zeta. rewrite !halve. unfold Clist. set (rowp := fun p => flat_map _ _).
  match goal with |- match forr P ?b ?s with _ => _ end = _ =>
    assert (G : exists bp, forr P b s = Some (bp, flat_map rowp (seq 0 P)) /\ fmul bp (Some ((1 - z) / 2)) = pwz z P) end.
  { set (T := make_table mn ma).
    apply (forr_inv (fun k st => exists bp, st = Some (bp, flat_map rowp (seq 0 k)) /\ fmul bp (Some ((1 - z) / 2)) = pwz z k)).
    - exists (rdiv 1 ((1 - z) / 2)). split; [auto|apply pwz_0].
    - intros k s Hk (bp & -> & Hb). rewrite Hb.
      match goal with |- exists bp', match forr ?n ?b ?s with _ => _ end = _ /\ _ =>
        assert (G : forr n b s = Some (pwz z (k + n), flat_map rowp (seq 0 k) ++ flat_map (fun q => map (Bval z (k + q)) (seq 0 (P - k - q))) (seq 0 n))) end.
      { apply (forr_inv (fun j st => st = Some (pwz z (k + j), flat_map rowp (seq 0 k) ++ flat_map (fun q => map (Bval z (k + q)) (seq 0 (P - k - q))) (seq 0 j)))).
        - rewrite Nat.add_0_r. cbn [seq flat_map]. rewrite app_nil_r. auto.
        - intros j s Hj ->. unfold T. rewrite row_ok by lia. rewrite pwz_S, Nat.add_succ_r. do 2 f_equal.
          rewrite seq_S, flat_map_app. cbn [flat_map]. rewrite app_nil_r, app_assoc. auto. }
      rewrite G. exists (pwz z k). split; [|apply pwz_S]. do 2 f_equal. rewrite seq_S, flat_map_app. cbn [flat_map]. rewrite app_nil_r. auto. }
  destruct G as (bp & -> & _). auto.
Qed.
Lemma Clist_ok P z : z <> 1 -> Clist P z = map Some (listC P z).
Proof.
  intros H. unfold Clist, listC. rewrite map_map, idx3_map. apply flat_map_ext_in. intros p _. apply flat_map_ext_in. intros q _.
  apply map_ext. intros r. apply Bval_ok; auto.
Qed.
