(** Lemmas on the byte encodings and readers. *)
From Verif Require Import M_Bytes.

Lemma le_enc_length n z : length (le_enc n z) = n.
Proof. revert z; induction n as [|n IH]; intros z; simpl; [|rewrite IH]; reflexivity. Qed.

Lemma le_dec_enc n z : le_dec (le_enc n z) = z mod 2 ^ (8 * Z.of_nat n).
Proof.
  revert z; induction n as [|n IH]; intros z.
  - simpl. rewrite Z.mod_1_r. reflexivity.
  - cbn [le_enc le_dec]. rewrite IH.
    replace (8 * Z.of_nat (S n)) with (8 + 8 * Z.of_nat n) by lia.
    rewrite Z.pow_add_r by lia. change (2 ^ 8) with 256.
    rewrite (Z.rem_mul_r z 256) by (try apply Z.pow_pos_nonneg; lia).
    reflexivity.
Qed.

Lemma dec_enc_int z : int32_range z -> dec_int (enc_int z) = z.
Proof.
  unfold int32_range, dec_int, enc_int. intros H.
  rewrite le_dec_enc. change (8 * Z.of_nat 4) with 32.
  destruct (Z_lt_ge_dec z 0) as [Hn|Hp].
  - replace (z mod 2 ^ 32) with (z + 2 ^ 32).
    2:{ apply (Z.mod_unique z (2 ^ 32) (-1)); [left; lia | lia]. }
    destruct (Z.ltb_spec (z + 2 ^ 32) (2 ^ 31)); lia.
  - rewrite Z.mod_small by lia.
    destruct (Z.ltb_spec z (2 ^ 31)); lia.
Qed.

Lemma dec_enc_dbl z : bits64_range z -> dec_dbl (enc_dbl z) = z.
Proof.
  unfold bits64_range, dec_dbl, enc_dbl. intros H.
  rewrite le_dec_enc. change (8 * Z.of_nat 8) with 64.
  apply Z.mod_small; lia.
Qed.

Lemma enc_int_length z : length (enc_int z) = 4%nat.
Proof. apply le_enc_length. Qed.
Lemma enc_dbl_length z : length (enc_dbl z) = 8%nat.
Proof. apply le_enc_length. Qed.
Lemma enc_point_length p : length (enc_point p) = 32%nat.
Proof. unfold enc_point. rewrite !app_length, !enc_int_length, !enc_dbl_length. reflexivity. Qed.
Lemma enc_gspec_length p : length (enc_gspec p) = 12%nat.
Proof. unfold enc_gspec. rewrite !app_length, !enc_int_length. reflexivity. Qed.

Definition point_ok (p : point) : Prop :=
  int32_range (p_coordim p) /\ int32_range (p_vid p) /\
  bits64_range (p_x p) /\ bits64_range (p_y p) /\ bits64_range (p_z p).

Definition gspec_ok (g : gspec) : Prop :=
  int32_range (gs_a g) /\ int32_range (gs_b g) /\ int32_range (gs_n g).

Lemma firstn_len_app {A} n (l r : list A) : length l = n -> firstn n (l ++ r) = l.
Proof. intros <-. rewrite firstn_app, Nat.sub_diag, firstn_O, app_nil_r. apply firstn_all. Qed.
Lemma skipn_len_app {A} n m (l r : list A) :
  length l = n -> skipn (n + m) (l ++ r) = skipn m r.
Proof.
  intros <-. rewrite skipn_app.
  rewrite skipn_all2 by lia. simpl. f_equal. lia.
Qed.

Lemma dec_enc_gspec g : gspec_ok g -> dec_gspec (enc_gspec g) = g.
Proof.
  destruct g as [a b n]; intros (Ha & Hb & Hn); cbn [gs_a gs_b gs_n] in *.
  unfold dec_gspec, enc_gspec; cbn [gs_a gs_b gs_n].
  set (A := enc_int a); set (B := enc_int b); set (N := enc_int n).
  assert (LA : length A = 4%nat) by apply enc_int_length.
  assert (LB : length B = 4%nat) by apply enc_int_length.
  assert (LN : length N = 4%nat) by apply enc_int_length.
  assert (E0 : firstn 4 (A ++ B ++ N) = A) by (apply firstn_len_app; assumption).
  assert (S1 : skipn 4 (A ++ B ++ N) = B ++ N) by (apply (skipn_len_app 4 0); assumption).
  assert (S2 : skipn 8 (A ++ B ++ N) = N).
  { rewrite (app_assoc A B). apply (skipn_len_app 8 0). rewrite app_length; lia. }
  rewrite E0, S1, S2. rewrite firstn_len_app by assumption.
  rewrite <- (app_nil_r N). rewrite firstn_len_app by assumption.
  subst A B N. rewrite !dec_enc_int by assumption. reflexivity.
Qed.

Lemma dec_enc_point p : point_ok p -> dec_point (enc_point p) = p.
Proof.
  destruct p as [a b x y z]; intros (Ha & Hb & Hx & Hy & Hz);
    cbn [p_coordim p_vid p_x p_y p_z] in *.
  unfold dec_point, enc_point; cbn [p_coordim p_vid p_x p_y p_z].
  set (A := enc_int a); set (B := enc_int b); set (X := enc_dbl x);
    set (Y := enc_dbl y); set (W := enc_dbl z).
  assert (LA : length A = 4%nat) by apply enc_int_length.
  assert (LB : length B = 4%nat) by apply enc_int_length.
  assert (LX : length X = 8%nat) by apply enc_dbl_length.
  assert (LY : length Y = 8%nat) by apply enc_dbl_length.
  assert (LW : length W = 8%nat) by apply enc_dbl_length.
  assert (E0 : firstn 4 (A ++ B ++ X ++ Y ++ W) = A) by (apply firstn_len_app; assumption).
  assert (S1 : skipn 4 (A ++ B ++ X ++ Y ++ W) = B ++ X ++ Y ++ W)
    by (apply (skipn_len_app 4 0); assumption).
  assert (S2 : skipn 8 (A ++ B ++ X ++ Y ++ W) = X ++ Y ++ W).
  { rewrite (app_assoc A B). apply (skipn_len_app 8 0). rewrite app_length; lia. }
  assert (S3 : skipn 16 (A ++ B ++ X ++ Y ++ W) = Y ++ W).
  { rewrite (app_assoc A B), (app_assoc (A ++ B) X).
    apply (skipn_len_app 16 0). rewrite !app_length; lia. }
  assert (S4 : skipn 24 (A ++ B ++ X ++ Y ++ W) = W).
  { rewrite (app_assoc A B), (app_assoc (A ++ B) X), (app_assoc ((A ++ B) ++ X) Y).
    apply (skipn_len_app 24 0). rewrite !app_length; lia. }
  rewrite E0, S1, S2, S3, S4.
  rewrite !firstn_len_app by assumption.
  rewrite <- (app_nil_r W). rewrite firstn_len_app by assumption.
  subst A B X Y W. rewrite !dec_enc_int, !dec_enc_dbl by assumption. reflexivity.
Qed.

(** [parses rd mem bs a]: wherever the bytes [bs] sit in [mem] (and [lim]
    admits reading up to their end), the reader started at their first byte
    returns [a] and stops right behind them. *)
Definition parses {A} (lim : nat -> Prop) (rd : reader A) (mem bs : list Z) (a : A) : Prop :=
  forall pre post, mem = pre ++ bs ++ post ->
    lim (length pre + length bs)%nat ->
    rd (length pre) = Ok (a, (length pre + length bs)%nat).

Definition down_closed (lim : nat -> Prop) : Prop :=
  forall a b, (a <= b)%nat -> lim b -> lim a.

Lemma parses_ret {A} lim mem (a : A) : parses lim (rret a) mem [] a.
Proof. intros pre post _ _. unfold rret. rewrite Nat.add_0_r. reflexivity. Qed.

Lemma parses_bind {A B} lim mem (r : reader A) (f : A -> reader B) b1 b2 a b :
  down_closed lim ->
  parses lim r mem b1 a -> parses lim (f a) mem b2 b ->
  parses lim (rbind r f) mem (b1 ++ b2) b.
Proof.
  intros Hd H1 H2 pre post E L. unfold rbind.
  rewrite app_length in *.
  rewrite (H1 pre (b2 ++ post)).
  - cbn [obind fst snd]. replace (length pre + length b1)%nat with (length (pre ++ b1))
      by apply app_length.
    rewrite (H2 (pre ++ b1) post).
    + rewrite app_length. f_equal. f_equal. lia.
    + rewrite E, !app_assoc. reflexivity.
    + rewrite app_length. eapply Hd; [|exact L]. lia.
  - rewrite E, <- app_assoc. reflexivity.
  - eapply Hd; [|exact L]. lia.
Qed.

Lemma parses_assert {B} lim mem (c : bool) (f : unit -> reader B) bs b :
  c = true -> parses lim (f tt) mem bs b -> parses lim (rbind (rassert c) f) mem bs b.
Proof. intros -> H pre post E L. unfold rbind, rassert. cbn. apply (H pre post E L). Qed.

Lemma parses_rrep {A} lim mem (r : reader A) (enc : A -> list Z) (l : list A) :
  down_closed lim ->
  (forall a, In a l -> parses lim r mem (enc a) a) ->
  parses lim (rrep (length l) r) mem (concat (map enc l)) l.
Proof.
  intros Hd. induction l as [|a l IH]; intros H.
  - apply parses_ret.
  - cbn [length rrep map concat].
    apply (parses_bind lim mem r _ (enc a) (concat (map enc l)) a); [exact Hd| |].
    + apply H. left; reflexivity.
    + rewrite <- (app_nil_r (concat _)).
      apply (parses_bind lim mem _ _ _ [] l); [exact Hd | | apply parses_ret].
      apply IH. intros x Hx. apply H. right; exact Hx.
Qed.

Lemma parses_rrep_gen {A B} lim mem (r : reader B) (enc : A -> list Z) (g : A -> B) (l : list A) :
  down_closed lim ->
  (forall a, In a l -> parses lim r mem (enc a) (g a)) ->
  parses lim (rrep (length l) r) mem (concat (map enc l)) (map g l).
Proof.
  intros Hd. induction l as [|a l IH]; intros H.
  - apply parses_ret.
  - cbn [length rrep map concat].
    apply (parses_bind lim mem r _ (enc a) (concat (map enc l)) (g a)); [exact Hd| |].
    + apply H. left; reflexivity.
    + rewrite <- (app_nil_r (concat _)).
      apply (parses_bind lim mem _ _ _ [] (map g l)); [exact Hd | | apply parses_ret].
      apply IH. intros x Hx. apply H. right; exact Hx.
Qed.

Lemma mem_read_at mem pre bs post :
  mem = pre ++ bs ++ post ->
  mem_read mem (length bs) (length pre) = Ok (bs, (length pre + length bs)%nat).
Proof.
  intros ->. unfold mem_read.
  rewrite !app_length.
  destruct (Nat.leb_spec (length pre + length bs) (length pre + (length bs + length post)));
    [|lia].
  f_equal. f_equal.
  replace (length pre) with (length pre + 0)%nat by lia.
  rewrite skipn_len_app by reflexivity. simpl.
  apply firstn_len_app. reflexivity.
Qed.

(** Never undefined behaviour. *)
Definition no_ub {A} (r : reader A) : Prop := forall off, r off <> UB.

Lemma no_ub_ret {A} (a : A) : no_ub (rret a).
Proof. intros off; discriminate. Qed.
Lemma no_ub_assert b : no_ub (rassert b).
Proof. intros off; unfold rassert; destruct b; discriminate. Qed.
Lemma no_ub_bind {A B} (r : reader A) (f : A -> reader B) :
  no_ub r -> (forall a, no_ub (f a)) -> no_ub (rbind r f).
Proof.
  intros H1 H2 off. unfold rbind, obind. specialize (H1 off).
  destruct (r off) as [[a o]| |]; [apply H2 | discriminate | congruence].
Qed.
Lemma no_ub_rrep {A} n (r : reader A) : no_ub r -> no_ub (rrep n r).
Proof.
  intros H; induction n as [|n IH]; simpl; [apply no_ub_ret|].
  apply no_ub_bind; [exact H|]. intros a. apply no_ub_bind; [exact IH|].
  intros l; apply no_ub_ret.
Qed.
