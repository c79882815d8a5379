(** Lemmas for C108. *)
From Coq Require Import QArith Qreals.
From Flocq Require Import Core.
From Verif Require Import M_RealBase L_RealBase M_Grid M_Double S_Double L_Double L_Double2 L_DoubleGrid M_DoubleExpr L_DoubleExpr M_NewtonGenD M_NewtonD S_NewtonD.
From Coq Require Import List Bool.
Import ListNotations.
Open Scope R_scope.

Definition be (n : nat) : nat * Q := if Nat.ltb n 3 then (0%nat, 129 # 128) else (1%nat, 1%Q).
Definition okvar (nv nd n : nat) : bool :=
  Nat.ltb n 3 && Nat.ltb n nd || Nat.leb 3 n && Nat.ltb n 6 && Nat.ltb (n - 3) nd || Nat.leb 6 n && Nat.ltb ((n - 6) / 3) nv && Nat.ltb ((n - 6) mod 3) nd.
Definition sum_top (e : ex) : bool := match e with EAdd _ _ | ESub _ _ => true | _ => false end.
Definition check_e (nv nd : nat) (k : Z) (e : ex) : bool :=
  match ana be e with
  | Some (1%nat, B, E) => Qle_bool E (inject_Z k * uq) && qbounded be e && forallb (okvar nv nd) (vars e) && sum_top e
  | _ => false
  end.
Lemma var_ok nv nd c xi p M n : inputs_ok nv nd c xi p M -> okvar nv nd n = true -> input_ok be (args c xi p) M n.
Proof.
  intros (_ & Hc & Hp) H. destruct xi as [[x0 x1] x2], p as [[p0 p1] p2]. unfold input_ok. unfold be.
  assert (Q1 : Q2R (129 # 128) = 129 / 128) by (unfold Q2R; cbn; lra). assert (Q2 : Q2R 1 = 1) by (unfold Q2R; cbn; lra).
  unfold okvar in H. apply orb_prop in H as [H|H]; [apply orb_prop in H as [H|H]|].
  - apply andb_prop in H as [H1 H2]. rewrite H1. cbn [fst snd pow]. rewrite Q1. split; [lia|]. apply Nat.ltb_lt in H1, H2. destruct (Hp n H2) as [_ [_ X]].
    rewrite Rmult_1_r. destruct n as [|[|[|]]]; [exact X|exact X|exact X|lia].
  - apply andb_prop in H as [H H2]. apply andb_prop in H as [H0 H1]. apply Nat.leb_le in H0. apply Nat.ltb_lt in H1, H2.
    destruct (Nat.ltb_spec n 3); [lia|]. cbn [fst snd pow]. rewrite Q2. split; [lia|]. destruct (Hp _ H2) as [[_ X] _]. rewrite Rmult_1_r, Rmult_1_l.
    destruct n as [|[|[|[|[|[|]]]]]]; try lia; exact X.
  - apply andb_prop in H as [H H2]. apply andb_prop in H as [H0 H1]. apply Nat.leb_le in H0. apply Nat.ltb_lt in H1, H2.
    destruct (Nat.ltb_spec n 3); [lia|]. cbn [fst snd pow]. rewrite Q2. split; [lia|]. destruct (Hc _ _ H1 H2) as [_ X]. rewrite Rmult_1_r, Rmult_1_l.
    destruct n as [|[|[|[|[|[|n]]]]]]; try lia; exact X.
Qed.
Lemma M_range nv nd c xi p M : inputs_ok nv nd c xi p M -> bpow radix2 (-500) <= M <= bpow radix2 500.
Proof.
  intros ([H1 H2] & _). rewrite inv_pow in H1. rewrite <- (bpow_nat 500) in H2. change (Z.of_nat 500) with 500%Z in *. auto.
Qed.
Lemma sum_double ct pl env e x : sum_top e = true -> deval ct pl env e = Some x -> is_double x.
Proof.
  destruct e as [| | |a b|a b|]; try discriminate; intros _; cbn [deval]; (destruct (deval ct _ env a); [|discriminate]; destruct (deval ct _ env b); [|discriminate]); cbn [bind]; intros E; apply (fl_double _ _ E).
Qed.
Lemma e_ok nv nd k e c xi p M ct pl : check_e nv nd k e = true -> inputs_ok nv nd c xi p M ->
  exists x, deval ct pl (args c xi p) e = Some x /\ is_double x /\ Rabs (x - evalR (args c xi p) e) <= IZR k * unit_roundoff * M /\ Rabs x <= 1000000 * M.
Proof.
  unfold check_e. destruct (ana be e) as [[[d B] E]|] eqn:A; [|discriminate]. destruct d as [|[|]]; try discriminate. intros H I.
  apply andb_prop in H as [H H4]. apply andb_prop in H as [H H3]. apply andb_prop in H as [H1 H2]. apply Qle_bool_iff, Qle_Rle in H1.
  rewrite forallb_forall in H3. pose proof (M_range _ _ _ _ _ _ I) as R. assert (MP : 0 < M) by (pose proof (bpow_gt_0 radix2 (-500)); lra).
  destruct (ana_ok be (args c xi p) M R ct e pl 1%nat B E A H2) as (_ & x & X1 & X2).
  { intros n Hn. apply (var_ok nv nd); auto. }
  exists x. split; [auto|]. split; [eapply sum_double; eauto|]. split.
  - destruct X2 as [_ X2]. cbn [pow] in X2. rewrite Rmult_1_r in X2. eapply Rle_trans; [exact X2|]. apply Rmult_le_compat_r; [lra|].
    eapply Rle_trans; [exact H1|]. rewrite Q2R_mult, Q2R_uq, u_eq. unfold Q2R, inject_Z. cbn [Qnum Qden]. rewrite Rinv_1, Rmult_1_r. lra.
  - pose proof (within_mag _ _ _ _ _ _ X2) as W. cbn [pow] in W. rewrite Rmult_1_r in W. eapply Rle_trans; [exact W|]. apply Rmult_le_compat_r; [lra|].
    assert (Hb : Qle_bool (B + E) 1000000 = true).
    { destruct e; cbn [qbounded] in H2; rewrite A in H2; apply andb_prop in H2; apply H2. }
    apply Qle_bool_iff, Qle_Rle in Hb. eapply Rle_trans; [exact Hb|]. unfold Q2R. cbn. lra.
Qed.
Lemma chk_quad : check_e 4 2 36 (fst quad_e) = true /\ check_e 4 2 36 (snd quad_e) = true.
Proof. split; vm_compute; reflexivity. Qed.
Definition check3 (nv : nat) (k : Z) (e : ex * ex * ex) : bool := check_e nv 3 k (fst (fst e)) && check_e nv 3 k (snd (fst e)) && check_e nv 3 k (snd e).
Lemma chk_tet : check3 4 42 tet_e = true. Proof. vm_compute. reflexivity. Qed.
Lemma chk_prism : check3 6 58 prism_e = true. Proof. vm_compute. reflexivity. Qed.
Lemma chk_hex : check3 8 102 hex_e = true. Proof. vm_compute. reflexivity. Qed.
Lemma chk_quademb : check3 5 42 quademb_e = true. Proof. vm_compute. reflexivity. Qed.
Lemma chk_triemb : check3 3 31 triemb_e = true. Proof. vm_compute. reflexivity. Qed.

(** residual vectors close to [F] *)
Definition near_vec (nd : nat) (tol M : R) (F : nat -> R) (f : R * R * R) : Prop :=
  forall a, (a < nd)%nat -> is_double (comp f a) /\ Rabs (comp f a - F a) <= tol /\ Rabs (comp f a) <= 1000000 * M.
Lemma eval3_ok nv k e c xi p M ct F : check3 nv k e = true -> inputs_ok nv 3 c xi p M ->
  evalR (args c xi p) (fst (fst e)) = F 0%nat -> evalR (args c xi p) (snd (fst e)) = F 1%nat -> evalR (args c xi p) (snd e) = F 2%nat ->
  exists f, eval3 ct (args c xi p) e = Some f /\ near_vec 3 (IZR k * unit_roundoff * M) M F f.
Proof.
  intros H I E0 E1 E2. unfold check3 in H. apply andb_prop in H as [H H2]. apply andb_prop in H as [H0 H1]. unfold eval3.
  destruct (e_ok _ _ _ _ c xi p M ct [false; false] H0 I) as (f0 & A0 & B0). destruct (e_ok _ _ _ _ c xi p M ct [true; false] H1 I) as (f1 & A1 & B1).
  destruct (e_ok _ _ _ _ c xi p M ct [true; true] H2 I) as (f2 & A2 & B2). rewrite A0, A1, A2. cbn [bind]. rewrite E0 in B0. rewrite E1 in B1. rewrite E2 in B2.
  eexists. split; [reflexivity|]. intros a Ha. destruct a as [|[|[|]]]; cbn [comp]; auto. lia.
Qed.
Lemma eval2_ok nv k e c xi p M ct F : check_e nv 2 k (fst e) = true /\ check_e nv 2 k (snd e) = true -> inputs_ok nv 2 c xi p M ->
  evalR (args c xi p) (fst e) = F 0%nat -> evalR (args c xi p) (snd e) = F 1%nat ->
  exists f, eval2 ct (args c xi p) e = Some f /\ near_vec 2 (IZR k * unit_roundoff * M) M F f.
Proof.
  intros [H0 H1] I E0 E1. unfold eval2.
  destruct (e_ok _ _ _ _ c xi p M ct [false; false] H0 I) as (f0 & A0 & B0). destruct (e_ok _ _ _ _ c xi p M ct [true; false] H1 I) as (f1 & A1 & B1).
  rewrite A0, A1. cbn [bind]. rewrite E0 in B0. rewrite E1 in B1.
  eexists. split; [reflexivity|]. intros a Ha. destruct a as [|[|]]; cbn [comp]; auto. lia.
Qed.
(** the exact value of the expressions is X - p *)
Lemma quad_val c xi p : evalR (args c xi p) (fst quad_e) = Xmap EQuad c xi 0 - comp p 0 /\ evalR (args c xi p) (snd quad_e) = Xmap EQuad c xi 1 - comp p 1.
Proof.
  destruct xi as [[x0 x1] x2], p as [[p0 p1] p2]. unfold quad_e, quad_f_e, X_, P_, V_, Xmap, shapef, bilin, lin, refvert, c1, c1_4. cbn. split; field.
Qed.
Lemma tet_val c xi p : evalR (args c xi p) (fst (fst tet_e)) = Xmap ETet c xi 0 - comp p 0 /\ evalR (args c xi p) (snd (fst tet_e)) = Xmap ETet c xi 1 - comp p 1 /\
  evalR (args c xi p) (snd tet_e) = Xmap ETet c xi 2 - comp p 2.
Proof. destruct xi as [[x0 x1] x2], p as [[p0 p1] p2]. unfold tet_e, tet_f_e, X_, P_, V_, Xmap, shapef, bilin, lin, refvert, c1, c1_2, c1_4. cbn. split; [field|split; field]. Qed.
Lemma prism_val c xi p : evalR (args c xi p) (fst (fst prism_e)) = Xmap EPrism c xi 0 - comp p 0 /\ evalR (args c xi p) (snd (fst prism_e)) = Xmap EPrism c xi 1 - comp p 1 /\
  evalR (args c xi p) (snd prism_e) = Xmap EPrism c xi 2 - comp p 2.
Proof. destruct xi as [[x0 x1] x2], p as [[p0 p1] p2]. unfold prism_e, prism_f_e, X_, P_, V_, Xmap, shapef, bilin, lin, refvert, c1, c1_2, c1_4. cbn. split; [field|split; field]. Qed.
Lemma hex_val c xi p : evalR (args c xi p) (fst (fst hex_e)) = Xmap EHex c xi 0 - comp p 0 /\ evalR (args c xi p) (snd (fst hex_e)) = Xmap EHex c xi 1 - comp p 1 /\
  evalR (args c xi p) (snd hex_e) = Xmap EHex c xi 2 - comp p 2.
Proof. destruct xi as [[x0 x1] x2], p as [[p0 p1] p2]. unfold hex_e, hex_f_e, X_, P_, V_, Xmap, shapef, bilin, lin, refvert, c1, c1_2, c1_4, c1_8. cbn. split; [field|split; field]. Qed.
Lemma quademb_val c xi p : let w := (c 4%nat 0%nat, c 4%nat 1%nat, c 4%nat 2%nat) in
  evalR (args c xi p) (fst (fst quademb_e)) = Xquad3 c w xi 0 - comp p 0 /\ evalR (args c xi p) (snd (fst quademb_e)) = Xquad3 c w xi 1 - comp p 1 /\
  evalR (args c xi p) (snd quademb_e) = Xquad3 c w xi 2 - comp p 2.
Proof. destruct xi as [[x0 x1] x2], p as [[p0 p1] p2]. unfold quademb_e, quademb_f_e, X_, P_, V_, Xquad3, Xmap, shapef, bilin, lin, refvert, c1, c1_2, c1_4, c1_8. cbn. split; [field|split; field]. Qed.
Lemma triemb_val c xi p :
  evalR (args c xi p) (fst (fst triemb_e)) = Xtri c xi 0 - comp p 0 /\ evalR (args c xi p) (snd (fst triemb_e)) = Xtri c xi 1 - comp p 1 /\
  evalR (args c xi p) (snd triemb_e) = Xtri c xi 2 - comp p 2.
Proof. destruct xi as [[x0 x1] x2], p as [[p0 p1] p2]. unfold triemb_e, X_, P_, V_, Xtri, c1, c1_2, c1_4, c1_8. cbn. split; [field|split; field]. Qed.

(** the measure *)
Definition scale_ok (s M : R) : Prop := 0 < s /\ s <= bpow radix2 480.
Lemma mul_fl f s M : Rabs f <= 1000000 * M -> M <= bpow radix2 500 -> scale_ok s M -> fl (Rabs f * s) = Some (rnd (Rabs f * s)).
Proof.
  intros H1 H2 [H3 H4]. pose proof (Rabs_pos f). apply (fl_bpow _ 1000); [lia|]. rewrite Rabs_pos_eq by (apply Rmult_le_pos; lra).
  apply Rle_trans with (bpow radix2 20 * bpow radix2 500 * bpow radix2 480); [|rewrite <- !bpow_plus; apply bpow_le; lia].
  apply Rmult_le_compat; [lra|lra| |auto]. eapply Rle_trans; [exact H1|]. assert (1000000 <= bpow radix2 20) by (cbn; lra). assert (0 <= M) by lra. apply Rmult_le_compat; lra.
Qed.
(** what a rounded product at most [tol] says, and when it is *)
Lemma rnd_le_tol z tol : 0 <= z -> rnd z <= tol -> z <= (1 + 2 * unit_roundoff) * tol + / 2 ^ 1074.
Proof.
  intros Hz H. pose proof (rnd_any_err z) as N. rewrite (Rabs_pos_eq z) in N by auto. apply Rabs_le_inv in N. rewrite u_eq. pose proof u_pos. pose proof u_small.
  rewrite inv_pow. change (- Z.of_nat 1074)%Z with (1 + -1075)%Z. rewrite bpow_plus. change (bpow radix2 1) with 2. set (n := bpow radix2 (-1075)) in *.
  assert (N0 : 0 <= n) by apply bpow_ge_0.
  assert (T0 : z * (1 - u) <= tol + n) by lra. assert (T1 : 0 <= z * u) by (apply Rmult_le_pos; lra).
  assert (T2 : z * u <= z * / 1000000) by (apply Rmult_le_compat_l; lra). 
  assert (TN : 0 <= tol + n) by (assert (0 <= z * (1 - u)) by (apply Rmult_le_pos; lra); lra).
  assert (Q : z <= (1 + 2 * u) * (tol + n)).
  { apply Rmult_le_reg_r with (1 - u); [lra|]. apply Rle_trans with (tol + n); [auto|].
    replace ((1 + 2 * u) * (tol + n) * (1 - u)) with ((tol + n) * (1 + u * (1 - 2 * u))) by ring.
    rewrite <- (Rmult_1_r (tol + n)) at 1. apply Rmult_le_compat_l; [auto|]. assert (0 <= u * (1 - 2 * u)) by (apply Rmult_le_pos; lra). lra. }
  eapply Rle_trans; [exact Q|]. rewrite Rmult_plus_distr_l. apply Rplus_le_compat_l. apply Rmult_le_compat_r; lra.
Qed.
Lemma tol_rnd_le z tol : 0 <= z -> z + / 2 ^ 1074 <= (1 - 2 * unit_roundoff) * tol -> rnd z <= tol.
Proof.
  intros Hz H. pose proof (rnd_any_err z) as N. rewrite (Rabs_pos_eq z) in N by auto. apply Rabs_le_inv in N. rewrite u_eq in H. pose proof u_pos. pose proof u_small.
  rewrite inv_pow in H. change (- Z.of_nat 1074)%Z with (1 + -1075)%Z in H. rewrite bpow_plus in H. change (bpow radix2 1) with 2 in H. set (n := bpow radix2 (-1075)) in *.
  assert (N0 : 0 <= n) by apply bpow_ge_0.
  assert (T : 0 <= tol). { apply Rmult_le_reg_l with (1 - 2 * u); [lra|]. rewrite Rmult_0_r. lra. }
  assert (U : u * (z + 2 * n) <= u * ((1 - 2 * u) * tol)) by (apply Rmult_le_compat_l; lra).
  assert (0 <= u * n) by (apply Rmult_le_pos; lra). assert (0 <= u * (u * tol)) by (apply Rmult_le_pos; [lra|apply Rmult_le_pos; lra]).
  assert (0 <= u * tol) by (apply Rmult_le_pos; lra). lra.
Qed.
Lemma fmax_le a b t : fmax a b <= t <-> a <= t /\ b <= t.
Proof. unfold fmax. destruct (Rlt_bool_spec a b); lra. Qed.
Definition scale_of (hex : bool) (s : R * R * R) (a : nat) : R := if hex then comp s 0 else comp s a.
(** the measure is at most a bound exactly if every scaled component rounds to at most it *)
Definition measure_of (nd : nat) (S : nat -> R) (f : R * R * R) (r : R) : Prop := forall t, r <= t <-> forall a, (a < nd)%nat -> rnd (Rabs (comp f a) * S a) <= t.
Lemma meas2 s f M tol F : near_vec 2 tol M F f -> M <= bpow radix2 500 -> (forall a, (a < 2)%nat -> scale_ok (comp s a) M) ->
  exists r, rel_error_2d s f = Some r /\ measure_of 2 (comp s) f r.
Proof.
  intros N HM Hs. destruct s as [[s0 s1] s2], f as [[f0 f1] f2]. destruct (N 0%nat ltac:(lia)) as (_ & _ & B0). destruct (N 1%nat ltac:(lia)) as (_ & _ & B1).
  pose proof (Hs 0%nat ltac:(lia)) as S0. pose proof (Hs 1%nat ltac:(lia)) as S1. cbn [comp] in *. unfold rel_error_2d.
  rewrite (mul_fl f0 s0 M), (mul_fl f1 s1 M) by auto. cbn [bind]. eexists. split; [reflexivity|]. intros t. rewrite fmax_le. split.
  - intros [H0 H1] a Ha. destruct a as [|[|]]; [auto|auto|lia].
  - intros H. split; [apply (H 0%nat)|apply (H 1%nat)]; lia.
Qed.
Lemma meas3 s f M tol F : near_vec 3 tol M F f -> M <= bpow radix2 500 -> (forall a, (a < 3)%nat -> scale_ok (comp s a) M) ->
  exists r, rel_error_3d s f = Some r /\ measure_of 3 (comp s) f r.
Proof.
  intros N HM Hs. destruct s as [[s0 s1] s2], f as [[f0 f1] f2]. destruct (N 0%nat ltac:(lia)) as (_ & _ & B0). destruct (N 1%nat ltac:(lia)) as (_ & _ & B1). destruct (N 2%nat ltac:(lia)) as (_ & _ & B2).
  pose proof (Hs 0%nat ltac:(lia)) as S0. pose proof (Hs 1%nat ltac:(lia)) as S1. pose proof (Hs 2%nat ltac:(lia)) as S2. cbn [comp] in *. unfold rel_error_3d.
  rewrite (mul_fl f0 s0 M), (mul_fl f1 s1 M), (mul_fl f2 s2 M) by auto. cbn [bind]. eexists. split; [reflexivity|]. intros t. rewrite !fmax_le. split.
  - intros [[H0 H1] H2] a Ha. destruct a as [|[|[|]]]; [auto|auto|auto|lia].
  - intros H. split; [split; [apply (H 0%nat)|apply (H 1%nat)]|apply (H 2%nat)]; lia.
Qed.
Lemma meas_hex s f M tol F : near_vec 3 tol M F f -> M <= bpow radix2 500 -> scale_ok s M ->
  exists r, rel_error_hex s f = Some r /\ measure_of 3 (fun _ => s) f r.
Proof.
  intros N HM Hs. destruct f as [[f0 f1] f2]. destruct (N 0%nat ltac:(lia)) as (_ & _ & B0). destruct (N 1%nat ltac:(lia)) as (_ & _ & B1). destruct (N 2%nat ltac:(lia)) as (_ & _ & B2).
  cbn [comp] in *. unfold rel_error_hex. set (m := fmax (fmax (Rabs f0) (Rabs f1)) (Rabs f2)).
  assert (L : Rabs f0 <= m /\ Rabs f1 <= m /\ Rabs f2 <= m) by (pose proof (proj1 (fmax_le (fmax (Rabs f0) (Rabs f1)) (Rabs f2) m) (Rle_refl _)) as [A B]; apply fmax_le in A; tauto).
  assert (E : m = Rabs f0 \/ m = Rabs f1 \/ m = Rabs f2). { unfold m, fmax. destruct (Rlt_bool (Rabs f0) (Rabs f1)); [destruct (Rlt_bool (Rabs f1) (Rabs f2)); auto|destruct (Rlt_bool (Rabs f0) (Rabs f2)); auto]. }
  assert (M0 : 0 <= m) by (pose proof (Rabs_pos f0); lra).
  replace m with (Rabs m) by (apply Rabs_pos_eq; auto).
  rewrite (mul_fl m s M); [|destruct E as [->|[->| ->]]; rewrite Rabs_Rabsolu; auto|auto|auto]. rewrite (Rabs_pos_eq m) by auto.
  eexists. split; [reflexivity|]. intros t. destruct Hs as [S0 S1]. split.
  - intros H a Ha. eapply Rle_trans; [|exact H]. apply rnd_mono. apply Rmult_le_compat_r; [lra|]. destruct a as [|[|[|]]]; cbn [comp]; [tauto|tauto|tauto|lia].
  - intros H. destruct E as [E|[E|E]]; rewrite E; [apply (H 0%nat)|apply (H 1%nat)|apply (H 2%nat)]; lia.
Qed.
