(** Lemmas for C85. *)
From Verif Require Import M_Loop S_Loop L_Loop M_Bary S_Bary L_RealBase L_Bary L_Bary2 L_Bary3 S_Coord M_Coord L_Coord M_NewtonMap M_NewtonBind M_Generic3D S_Newton S_Generic3D.
From Coq Require Import Lia Lra List.
Import ListNotations.
Open Scope R_scope.

Lemma prodn_ext n f g : (forall i, (i < n)%nat -> f i = g i) -> prodn n f = prodn n g.
Proof. induction n as [|n IH]; simpl; intros H; auto. rewrite IH, H; auto. Qed.
Lemma prodn_div n f g : (forall i, (i < n)%nat -> g i <> 0) -> prodn n (fun i => f i / g i) = prodn n f / prodn n g.
Proof.
  induction n as [|n IH]; simpl; intros H; [field|]. rewrite IH by auto. pose proof (prodn_nz n g ltac:(auto)). specialize (H n ltac:(lia)). field. auto.
Qed.
Lemma prodn_split n f i : (i < n)%nat -> prodn n f = f i * prodn n (fun j => if Nat.eqb j i then 1 else f j).
Proof.
  induction n as [|n IH]; intros Hi; [lia|]. simpl. destruct (Nat.eqb_spec n i) as [->|Hne].
  - rewrite (prodn_ext i (fun j => if Nat.eqb j i then 1 else f j) f); [ring|]. intros j Hj. destruct (Nat.eqb_spec j i); [lia|auto].
  - rewrite IH by lia. ring.
Qed.
Lemma pn_prod n z x : (forall i, (i < n)%nat -> z i <> x) -> pn x (map z (seq 0 n)) = prodn n (fun j => x - z j).
Proof.
  intros H. assert (Q : forall k, (k <= n)%nat -> pn x (map z (seq 0 k)) = prodn k (fun j => x - z j)); [|auto].
  induction k as [|k IH]; intros Hk; [reflexivity|]. rewrite seq_S, map_app. simpl.
  rewrite (pn_perm x (map z (seq 0 k) ++ [z k]) (z k :: map z (seq 0 k))) by (symmetry; apply Permutation.Permutation_cons_append).
  cbn [pn]. rewrite IH by lia. rewrite fac_diff; [ring|]. intros E. apply (H k ltac:(lia)). auto.
Qed.
Lemma prodn_zero n f k : (k < n)%nat -> f k = 0 -> prodn n f = 0.
Proof. intros Hk Hf. rewrite (prodn_split n f k Hk), Hf. ring. Qed.
Lemma prodn_one n f : (forall i, (i < n)%nat -> f i = 1) -> prodn n f = 1.
Proof. induction n as [|n IH]; simpl; intros H; auto. rewrite IH, H; auto. ring. Qed.
Lemma lag_weights n z bw x w : distinct n z -> barycentric n z bw -> node_weights n z bw x w ->
  forall i, (i < n)%nat -> w i = lagrange n z i x.
Proof.
  intros Hd (c & Hc & Hb) [(k & Hk & Ek & Hw & Ho)|(Hx & Hs & Hw)] i Hi; unfold lagrange.
  - destruct (Nat.eq_dec i k) as [->|Hne].
    + rewrite Hw. symmetry. apply prodn_one. intros j Hj. destruct (Nat.eqb_spec j k); auto. rewrite <- Ek. field.
      intros E. assert (z k = z j) by lra. apply Hd in H; auto.
    + rewrite Ho by auto. symmetry. apply (prodn_zero _ _ k Hk). destruct (Nat.eqb_spec k i); [congruence|]. rewrite <- Ek. unfold Rdiv. ring.
  - rewrite Hw by auto. pose proof (bary_sum n z x [1] Hd Hx ltac:(simpl; lia)) as H2.
    assert (ET : sumn n (fun j => bw j / (z j - x)) = c * - (ev [1] x / pn x (map z (seq 0 n)))).
    { rewrite <- H2, <- sumn_scal. apply sumn_ext. intros j Hj. rewrite Hb by auto. cbn [ev]. field. split; [apply node_prod_nz; auto|]. specialize (Hx j Hj). lra. }
    rewrite ET, pn_prod by auto. rewrite Hb by auto. cbn [ev].
    rewrite (prodn_split n (fun j => x - z j) i Hi).
    rewrite (prodn_ext n (fun j => if Nat.eqb j i then 1 else (x - z j) / (z i - z j)) (fun j => (if Nat.eqb j i then 1 else x - z j) / (if Nat.eqb j i then 1 else z i - z j))).
    2:{ intros j _. destruct (Nat.eqb j i); auto. field. }
    rewrite prodn_div.
    2:{ intros j Hj. destruct (Nat.eqb_spec j i); [lra|]. intros E. assert (z i = z j) by lra. apply Hd in H; auto. }
    pose proof (node_prod_nz n z i Hd Hi) as N1.
    assert (N2 : prodn n (fun j => if Nat.eqb j i then 1 else x - z j) <> 0).
    { apply prodn_nz. intros j Hj. destruct (Nat.eqb j i); [lra|]. specialize (Hx j Hj). lra. }
    specialize (Hx i Hi). field. repeat split; auto; lra.
Qed.

(** * layout *)
Lemma nth_vec n b i : (i < n)%nat -> nth i (vec n b) 0 = b i.
Proof. intros H. unfold vec. rewrite (nth_indep _ 0 (b O)) by (rewrite map_length, seq_length; auto). rewrite map_nth. f_equal. rewrite seq_nth by auto. lia. Qed.
Lemma len_vec n b : length (vec n b) = n.
Proof. unfold vec. now rewrite map_length, seq_length. Qed.
Ltac upds := repeat first [rewrite upd_same | rewrite upd_other by lia].
Lemma interlace3_spec n p0 p1 p2 : length (interlace3 n p0 p1 p2) = (3 * n)%nat /\ forall i, (i < n)%nat ->
  nth (i * 3 + 0) (interlace3 n p0 p1 p2) 0 = p0 i /\ nth (i * 3 + 1) (interlace3 n p0 p1 p2) 0 = p1 i /\ nth (i * 3 + 2) (interlace3 n p0 p1 p2) 0 = p2 i.
Proof.
  unfold interlace3. split; [apply len_vec|]. intros i Hi.
  match goal with |- context [vec _ (forr n ?body ?st)] => set (B := body); set (S0 := st) end.
  assert (Q : forall j, (j < n)%nat -> forr n B S0 (3 * j + 0)%nat = p0 j /\ forr n B S0 (3 * j + 1)%nat = p1 j /\ forr n B S0 (3 * j + 2)%nat = p2 j).
  { apply (forr_inv (fun m t => forall j, (j < m)%nat -> t (3 * j + 0)%nat = p0 j /\ t (3 * j + 1)%nat = p1 j /\ t (3 * j + 2)%nat = p2 j)); [intros; lia|].
    intros m t Hm IH j Hj. unfold B. destruct (Nat.eq_dec j m) as [->|Hne]; [repeat split; upds; auto|]. destruct (IH j ltac:(lia)) as (A1 & A2 & A3). repeat split; upds; auto. }
  replace (i * 3 + 0)%nat with (3 * i + 0)%nat by lia. replace (i * 3 + 1)%nat with (3 * i + 1)%nat by lia. replace (i * 3 + 2)%nat with (3 * i + 2)%nat by lia.
  rewrite !nth_vec by lia. auto.
Qed.
Lemma lt9 c : (c < 9)%nat -> c = 0%nat \/ c = 1%nat \/ c = 2%nat \/ c = 3%nat \/ c = 4%nat \/ c = 5%nat \/ c = 6%nat \/ c = 7%nat \/ c = 8%nat.
Proof. lia. Qed.
Lemma interlace9_spec n d : length (interlace9 n d) = (9 * n)%nat /\ forall i a b, (i < n)%nat -> (a < 3)%nat -> (b < 3)%nat ->
  nth (i * 9 + (3 * a + b)) (interlace9 n d) 0 = d a b i.
Proof.
  unfold interlace9. split; [apply len_vec|]. intros i a b Hi Ha Hb.
  match goal with |- context [vec _ (forr n ?body ?st)] => set (B := body); set (S0 := st) end.
  assert (Q : forall j, (j < n)%nat -> forall a b, (a < 3)%nat -> (b < 3)%nat -> forr n B S0 (9 * j + (3 * a + b))%nat = d a b j).
  { apply (forr_inv (fun m t => forall j, (j < m)%nat -> forall a b, (a < 3)%nat -> (b < 3)%nat -> t (9 * j + (3 * a + b))%nat = d a b j)); [intros; lia|].
    intros m t Hm IH j Hj a' b' Ha' Hb'. unfold B. destruct (Nat.eq_dec j m) as [->|Hne].
    - assert (A : a' = 0%nat \/ a' = 1%nat \/ a' = 2%nat) by lia. assert (A2 : b' = 0%nat \/ b' = 1%nat \/ b' = 2%nat) by lia.
      destruct A as [->|[->| ->]]; destruct A2 as [->|[->| ->]]; cbv zeta; cbn [Nat.mul Nat.add]; upds; auto.
    - cbv zeta. rewrite !upd_other by lia. auto with arith. apply IH; auto; lia. }
  replace (i * 9 + (3 * a + b))%nat with (9 * i + (3 * a + b))%nat by lia. rewrite nth_vec by nia. auto.
Qed.
Lemma nth_app_at {A} (l r : list A) k i d : k = length l -> nth (k + i) (l ++ r) d = nth i r d.
Proof. intros ->. rewrite app_nth2 by lia. f_equal. lia. Qed.

Lemma idx_lt n0 n1 n2 i0 i1 i2 : (i0 < n0)%nat -> (i1 < n1)%nat -> (i2 < n2)%nat -> (i2 * (n0 * n1) + i1 * n0 + i0 < n0 * n1 * n2)%nat.
Proof. intros. assert (i1 * n0 + i0 < n0 * n1)%nat by nia. nia. Qed.

(** the facts about the written data that the kernels use *)
Record written (s : shape3) (x : xmap) (d : g3data) : Prop := {
  wr_shape : g_shape d = shape_int3 s; wr_scale : g_scale d = xm_scale x;
  wr_n0 : g_n0 d = npts x 0; wr_n1 : g_n1 d = npts x 1; wr_n2 : g_n2 d = npts x 2;
  wr_local : g_local d = (npts x 0 + npts x 1 + npts x 2)%nat;
  wr_len : length (g_mem d) = (g_deriv d + 9 * (npts x 0 * npts x 1 * npts x 2))%nat;
  wr_z : forall i, ((i < npts x 0)%nat -> at_ (rd (g_mem d)) (g_z0 d) i = node x 0 i) /\
                   ((i < npts x 1)%nat -> at_ (rd (g_mem d)) (g_z1 d) i = node x 1 i) /\
                   ((i < npts x 2)%nat -> at_ (rd (g_mem d)) (g_z2 d) i = node x 2 i);
  wr_b : forall i, ((i < npts x 0)%nat -> at_ (rd (g_mem d)) (g_bw0 d) i = nth i (wts x 0) 0) /\
                   ((i < npts x 1)%nat -> at_ (rd (g_mem d)) (g_bw1 d) i = nth i (wts x 1) 0) /\
                   ((i < npts x 2)%nat -> at_ (rd (g_mem d)) (g_bw2 d) i = nth i (wts x 2) 0);
  wr_p : forall i0 i1 i2 a, (i0 < npts x 0)%nat -> (i1 < npts x 1)%nat -> (i2 < npts x 2)%nat -> (a < 3)%nat ->
    at_ (rd (g_mem d)) (g_phys d) ((i2 * (npts x 0 * npts x 1) + i1 * npts x 0 + i0) * 3 + a)%nat = nodal x (xm_phys x a) i0 i1 i2;
  wr_d : forall i0 i1 i2 a b, (i0 < npts x 0)%nat -> (i1 < npts x 1)%nat -> (i2 < npts x 2)%nat -> (a < 3)%nat -> (b < 3)%nat ->
    at_ (rd (g_mem d)) (g_deriv d) ((i2 * (npts x 0 * npts x 1) + i1 * npts x 0 + i0) * 9 + (3 * a + b))%nat = nodal x (xm_deriv x (xm_phys x a) b) i0 i1 i2 }.

Lemma write_ok s x : good_xmap s x -> exists d, g3_write x = Ok d /\ written s x d.
Proof.
  intros (H3 & Ht & Hs & Hg). destruct x as [base tot phys deriv scale shape]. cbn [xm_base xm_tot xm_shape] in *.
  destruct base as [|[z0 b0] [|[z1 b1] [|[z2 b2] [|]]]]; try discriminate. clear H3.
  destruct (Hg 0%nat ltac:(lia)) as (_ & L0 & _). destruct (Hg 1%nat ltac:(lia)) as (_ & L1 & _). destruct (Hg 2%nat ltac:(lia)) as (_ & L2 & _).
  clear Hg. unfold npts, pts, wts in *. cbn [xm_base nth fst snd] in *. unfold g3_write. cbn [xm_base xm_tot].
  rewrite Ht, Nat.eqb_refl. set (P := (length z0 * length z1 * length z2)%nat) in *.
  match goal with |- context [if Nat.eqb ?a ?b then _ else _] => replace (Nat.eqb a b) with true by (symmetry; apply Nat.eqb_eq; lia) end.
  destruct (interlace3_spec P (rd (phys 0%nat)) (rd (phys 1%nat)) (rd (phys 2%nat))) as [E3 I3].
  destruct (interlace9_spec P (fun a b => rd (deriv (phys a) b))) as [E9 I9].
  eexists. split; [reflexivity|]. cbn [xm_phys xm_deriv xm_shape xm_scale].
  set (T3 := interlace3 _ _ _ _) in *. set (T9 := interlace9 _ _) in *.
  constructor; cbn [g_shape g_scale g_n0 g_n1 g_n2 g_local g_mem g_deriv g_phys g_z0 g_z1 g_z2 g_bw0 g_bw1 g_bw2 xm_scale xm_phys xm_deriv]; auto;
    unfold npts, pts, wts, node, nodal, at_, rd; cbn [xm_base nth fst snd].
  - rewrite !app_length, E3, E9, L0, L1, L2. fold P. lia.
  - intros i. split; [|split]; intros Hi.
    + rewrite app_nth1; auto.
    + rewrite (nth_app_at z0) by auto. rewrite app_nth1; auto.
    + rewrite app_assoc, (nth_app_at (z0 ++ z1)) by (rewrite app_length; auto). rewrite app_nth1; auto.
  - intros i. split; [|split]; intros Hi.
    + rewrite 2app_assoc, (nth_app_at ((z0 ++ z1) ++ z2)) by (rewrite !app_length; lia). rewrite app_nth1 by lia. auto.
    + rewrite 3app_assoc, (nth_app_at (((z0 ++ z1) ++ z2) ++ b0)) by (rewrite !app_length; lia). rewrite app_nth1 by lia. auto.
    + rewrite 4app_assoc, (nth_app_at ((((z0 ++ z1) ++ z2) ++ b0) ++ b1)) by (rewrite !app_length; lia). rewrite app_nth1 by lia. auto.
  - intros i0 i1 i2 a H0 H1 H2 Ha. unfold npts, pts in *. cbn [xm_base nth fst snd] in *.
    pose proof (idx_lt _ _ _ _ _ _ H0 H1 H2) as Hi. fold P in Hi. set (i := (i2 * (length z0 * length z1) + i1 * length z0 + i0)%nat) in *.
    rewrite 5app_assoc, (nth_app_at (((((z0 ++ z1) ++ z2) ++ b0) ++ b1) ++ b2)) by (rewrite !app_length; lia). rewrite app_nth1 by lia.
    destruct (I3 i Hi) as (A0 & A1 & A2). assert (C : a = 0%nat \/ a = 1%nat \/ a = 2%nat) by lia. destruct C as [->|[->| ->]]; auto.
  - intros i0 i1 i2 a b H0 H1 H2 Ha Hb. unfold npts, pts in *. cbn [xm_base nth fst snd] in *.
    pose proof (idx_lt _ _ _ _ _ _ H0 H1 H2) as Hi. fold P in Hi. set (i := (i2 * (length z0 * length z1) + i1 * length z0 + i0)%nat) in *.
    rewrite 6app_assoc. rewrite (nth_app_at ((((((z0 ++ z1) ++ z2) ++ b0) ++ b1) ++ b2) ++ T3)) by (rewrite !app_length; lia). apply I9; auto.
Qed.
