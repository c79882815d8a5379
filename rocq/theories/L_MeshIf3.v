(** create_mesh_hierarchy: cell size and subdivision order. *)
From Coq Require Import Reals Lra Lia ZArith.
From Flocq Require Import Core.
From Verif Require Import S_Grid S_MeshIf L_RealBase M_RealBase M_Grid M_MeshIf L_Coarse2 L_Coord L_MeshIf L_MeshIf2.
From Coq Require Import List.
Import ListNotations.
Open Scope R_scope.

Lemma Rltb_true a b : Rlt_bool a b = true -> a < b.
Proof. destruct (Rlt_bool_spec a b); [auto|discriminate]. Qed.
Lemma zprod_pos l : Forall (fun z => (0 < z)%Z) l -> (0 < zprod l)%Z.
Proof.
  unfold zprod. assert (G : forall a, (0 < a)%Z -> Forall (fun z => (0 < z)%Z) l -> (0 < fold_left Z.mul l a)%Z).
  { induction l as [|x l IH]; intros a Ha H; cbn [fold_left]; auto. inversion H; subst. apply IH; auto. lia. }
  apply G. lia.
Qed.

Lemma hierarchy_sizes gbb N offset su : gbb <> [] -> Forall (fun lu => snd lu - fst lu <= DBL_MAX) gbb -> create_mesh_hierarchy gbb N offset = Some su ->
  let ext := map (fun lu => snd lu - fst lu) gbb in
  exists mn mx, In mn ext /\ In mx ext /\ (forall e, In e ext -> mn <= e <= mx) /\ 0 < mn /\
    (2 * mn <= mx -> mh_cwc (su_mh su) = mn) /\ (mx < 2 * mn -> mh_cwc (su_mh su) = mx).
Proof.
  intros Hn Hd H. cbn zeta. unfold create_mesh_hierarchy in H. change (box_extents gbb) with (map (fun lu : R * R => snd lu - fst lu) gbb) in H.
  set (ext := map (fun lu : R * R => snd lu - fst lu) gbb) in *.
  assert (Hx : forall e, In e ext -> e <= DBL_MAX). { intros e He. unfold ext in He. apply in_map_iff in He. destruct He as (lu & <- & He). rewrite Forall_forall in Hd. auto. }
  set (mn := fold_left fmin ext DBL_MAX) in *. set (mx := fold_left fmax ext DBL_LOWEST) in *.
  destruct (Rlt_bool 0 mn) eqn:E; cbn [check] in H; [|discriminate]. apply Rltb_true in E. injection H as <-. cbn [su_mh mh_cwc].
  destruct (fold_fmin_le ext DBL_MAX) as [_ M2]. fold mn in M2. destruct (fold_fmax_ge ext DBL_LOWEST) as [X1 X2]. fold mx in X1, X2.
  rewrite Forall_forall in M2, X2. assert (exists e, In e ext) as (e0 & He0). { destruct gbb as [|lu r]; [congruence|]. eexists. left. reflexivity. }
  assert (I1 : In mn ext). { destruct (fold_fmin_in ext DBL_MAX) as [Q|Q]; [|auto]. fold mn in Q. pose proof (M2 _ He0). pose proof (Hx _ He0). assert (e0 = mn) by lra. subst. auto. }
  assert (I2 : In mx ext). { destruct (fold_fmax_in ext DBL_LOWEST) as [Q|Q]; [|auto]. fold mx in Q. pose proof (X2 _ He0). pose proof (M2 _ He0). unfold DBL_LOWEST in Q. pose proof DBL_MAX_pos. lra. }
  exists mn, mx. split; [auto|]. split; [auto|]. split; [intros e He; split; auto|]. split; [auto|].
  assert (D : mx / mn * mn = mx) by (field; lra). split; intros H.
  - rewrite Rle_bool_true; [auto|]. apply Rmult_le_reg_r with mn; lra.
  - rewrite Rle_bool_false; [auto|]. apply Rmult_lt_reg_r with mn; lra.
Qed.
Lemma hierarchy_order gbb N offset su : gbb <> [] -> (0 < N)%Z -> create_mesh_hierarchy gbb N offset = Some su ->
  let d := INR (length gbb) in let count := IZR (zprod (mh_dims (su_mh su))) in
  IZR N <= count * exp (d * IZR (su_order su - offset)) /\
  ((0 < su_order su)%Z -> count * exp (d * IZR (su_order su - 1 - offset)) < IZR N).
Proof.
  intros Hn HN H. pose proof H as H'. apply (create_spec _ _ _ _ Hn) in H'. destruct H' as (Hok & _).
  assert (Hc : (0 < zprod (mh_dims (su_mh su)))%Z) by (apply zprod_pos; apply Hok).
  cbn zeta. unfold create_mesh_hierarchy in H. set (ext := box_extents gbb) in *. destruct (Rlt_bool 0 _); cbn [check] in H; [|discriminate]. injection H as <-. cbn [su_mh su_order mh_dims] in *.
  set (dims := map _ ext) in *. set (d := INR (length gbb)). assert (Hd : 0 < d). { unfold d. apply lt_0_INR. destruct gbb; [congruence|cbn; lia]. }
  set (x := (ln (IZR N) - ln (IZR (zprod dims))) * (1 / d)). assert (HC : 0 < IZR (zprod dims)) by (apply IZR_lt; auto). assert (HNr : 0 < IZR N) by (apply IZR_lt; auto).
  assert (Ex : IZR (zprod dims) * exp (d * x) = IZR N).
  { unfold x. replace (d * ((ln (IZR N) - ln (IZR (zprod dims))) * (1 / d))) with (ln (IZR N) + - ln (IZR (zprod dims))) by (field; lra).
    rewrite exp_plus, exp_Ropp, !exp_ln by auto. field. lra. }
  pose proof (Zceil_ub x) as U. split.
  - rewrite <- Ex at 1. apply Rmult_le_compat_l; [lra|]. assert (d * x <= d * IZR (Z.max 0 (Zceil x + offset) - offset)) as [L|L]; [|left; apply exp_increasing; auto|right; rewrite L; auto].
    apply Rmult_le_compat_l; [lra|]. apply Rle_trans with (1 := U). apply IZR_le. lia.
  - intros Ho. rewrite <- Ex. apply Rmult_lt_compat_l; [lra|]. apply exp_increasing. apply Rmult_lt_compat_l; [lra|].
    replace (Z.max 0 (Zceil x + offset) - 1 - offset)%Z with (Zceil x - 1)%Z by lia. unfold Zceil. rewrite minus_IZR, opp_IZR. pose proof (Zfloor_ub (- x)). lra.
Qed.

(** the subdivision order grows too slowly: unit square *)
Definition unit_square : box := [(0, 1); (0, 1)].
Lemma exp_two : 2 < exp (7 / 8).
Proof.
  replace (7 / 8) with (1/8 + (1/8 + (1/8 + (1/8 + (1/8 + (1/8 + 1/8)))))) by field. rewrite !exp_plus.
  pose proof (exp_ineq1 (1/8) ltac:(lra)). set (e := exp (1/8)) in *.
  assert (9/8 * (9/8) <= e * e) by (apply Rmult_le_compat; lra). assert (9/8 * (9/8) * (9/8) <= e * e * e) by (apply Rmult_le_compat; nra).
  replace (e * (e * (e * (e * (e * (e * e)))))) with (e * e * e * (e * e * e) * e) by ring.
  assert (9/8 * (9/8) * (9/8) * (9/8 * (9/8) * (9/8)) <= e * e * e * (e * e * e)) by (apply Rmult_le_compat; nra).
  assert (9/8 * (9/8) * (9/8) * (9/8 * (9/8) * (9/8)) * (9/8) <= e * e * e * (e * e * e) * e) by (apply Rmult_le_compat; nra). lra.
Qed.
Lemma exp_pow x n : exp x ^ n = exp (INR n * x).
Proof. induction n as [|n IH]; [cbn; rewrite Rmult_0_l, exp_0; auto|]. rewrite <- tech_pow_Rmult, IH, <- exp_plus, S_INR. f_equal. ring. Qed.
Lemma unit_square_order j su : create_mesh_hierarchy unit_square (2 ^ (16 * Z.of_nat j)) 0 = Some su ->
  (su_order su <= 7 * Z.of_nat j)%Z /\ fine_counts (su_mh su) = [(2 ^ su_order su)%Z; (2 ^ su_order su)%Z].
Proof.
  intros H. assert (Hn : unit_square <> []) by discriminate.
  pose proof (hierarchy_order unit_square (2 ^ (16 * Z.of_nat j)) 0 su Hn ltac:(apply Z.pow_pos_nonneg; lia) H) as [_ HO].
  pose proof (hierarchy_sizes unit_square (2 ^ (16 * Z.of_nat j)) 0 su Hn) as HS. cbn zeta in HS. pose proof DBL_MAX_ge_1 as B.
  assert (C1 : mh_cwc (su_mh su) = 1).
  { destruct HS as (mn & mx & I1 & I2 & _ & _ & _ & H2); [repeat constructor; simpl; lra|auto|]. cbn [map unit_square fst snd In] in I1, I2. assert (mn = 1) by (destruct I1 as [<-|[<-|[]]]; lra). assert (mx = 1) by (destruct I2 as [<-|[<-|[]]]; lra). rewrite H2; lra. }
  destruct (create_spec _ _ _ _ Hn H) as (_ & _ & _ & _ & Hnf & HF). rewrite C1 in HF.
  assert (D : mh_dims (su_mh su) = [1; 1]%Z).
  { assert (G : forall z, 1 - 0 <= IZR z * 1 -> (IZR z - 1) * 1 < 1 - 0 -> z = 1%Z). { intros z G1 G2. assert (0 < z)%Z by (apply lt_IZR; lra). assert (z < 2)%Z by (apply lt_IZR; lra). lia. }
    unfold unit_square in HF. inversion HF as [|? a ? ? (_ & G1 & G2) HF']. inversion HF' as [|? b ? ? (_ & G3 & G4) HF'']. inversion HF''. cbn [fst snd] in *. f_equal; [|f_equal]; apply G; auto. }
  split; [|unfold fine_counts; rewrite D, Hnf; cbn [map]; rewrite Z.mul_1_r; auto].
  destruct (Z_le_gt_dec (su_order su) (7 * Z.of_nat j)) as [L|L]; [auto|exfalso]. specialize (HO ltac:(lia)). rewrite D in HO. cbn [zprod fold_left length unit_square] in HO.
  change (zprod [1; 1]%Z) with 1%Z in HO. rewrite Rmult_1_l in HO.
  assert (E : exp (14 * INR j) <= exp (INR 2 * IZR (su_order su - 1 - 0))).
  { assert (14 * INR j <= INR 2 * IZR (su_order su - 1 - 0)) as [Q|Q]; [|left; apply exp_increasing; auto|right; rewrite Q; auto].
    rewrite !minus_IZR. rewrite INR_IZR_INZ. assert (IZR (7 * Z.of_nat j + 1) <= IZR (su_order su)) by (apply IZR_le; lia). rewrite plus_IZR, mult_IZR in *. cbn [INR]. lra. }
  assert (P : IZR (2 ^ (16 * Z.of_nat j)) <= exp (14 * INR j)).
  { replace (14 * INR j) with (INR (16 * j) * (7 / 8)) by (rewrite mult_INR; cbn [INR]; field). rewrite <- exp_pow.
    replace (16 * Z.of_nat j)%Z with (Z.of_nat (16 * j)) by lia. rewrite <- pow_IZR. apply pow_incr. pose proof exp_two. lra. }
  lra.
Qed.
Lemma order_unbounded : ~ exists K : Z, forall gbb N su, gbb <> [] -> (0 < N)%Z -> create_mesh_hierarchy gbb N 0 = Some su -> (N <= K * product (fine_counts (su_mh su)))%Z.
Proof.
  intros (K & H). set (j := Z.to_nat (Z.max 0 K)). destruct (create_total unit_square (2 ^ (16 * Z.of_nat j)) 0) as (su & Hs); [repeat constructor; simpl; lra|].
  specialize (H unit_square (2 ^ (16 * Z.of_nat j))%Z su ltac:(discriminate) ltac:(apply Z.pow_pos_nonneg; lia) Hs). destruct (unit_square_order j su Hs) as [L E]. rewrite E in H. cbn [product] in H.
  assert (Ho : (0 <= su_order su)%Z) by (destruct (create_spec unit_square _ _ _ ltac:(discriminate) Hs) as (_ & _ & _ & X & _); auto).
  assert (M : (2 ^ su_order su <= 2 ^ (7 * Z.of_nat j))%Z) by (apply Z.pow_le_mono_r; lia).
  assert (P0 : (0 < 2 ^ su_order su)%Z) by (apply Z.pow_pos_nonneg; lia).
  replace (16 * Z.of_nat j)%Z with (7 * Z.of_nat j + 7 * Z.of_nat j + 2 * Z.of_nat j)%Z in H by lia. rewrite !Z.pow_add_r in H by lia.
  assert (Q : (2 * Z.of_nat j < 2 ^ (2 * Z.of_nat j))%Z) by (apply Z.pow_gt_lin_r; lia). assert (K <= Z.of_nat j)%Z by lia. set (p := (2 ^ (7 * Z.of_nat j))%Z) in *. set (o := (2 ^ su_order su)%Z) in *. set (q := (2 ^ (2 * Z.of_nat j))%Z) in *.
  assert (o * (o * 1) <= p * p)%Z by nia. assert (K < q)%Z by lia. assert (0 < p * p)%Z by nia. destruct (Z_le_gt_dec K 0); nia.
Qed.
