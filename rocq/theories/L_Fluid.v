From Verif Require Import S_Fluid L_Util L_Coord.
From Coq Require Import FunctionalExtensionality Lra Lia.
From Coq Require Import List.
Open Scope R_scope.
Open Scope list_scope.

Lemma fidx_ok (s : fsess) (n : string) k : NoDup (fs_vars s) -> nth_error (fs_vars s) k = Some n -> fidx s n = FOk (Z.of_nat k).
Proof.
  intros Hn Hk. unfold fidx, fim_at. rewrite (fim_find_last (fs_vars s) n k Hk); auto.
  intros k' Hlt E. assert (k = k'); [|lia].
  apply (proj1 (NoDup_nth_error (fs_vars s)) Hn); [apply nth_error_Some; congruence | congruence].
Qed.
Lemma fidx_none (s : fsess) (n : string) : ~ In n (fs_vars s) -> fidx s n = FThrow.
Proof. intros H. unfold fidx, fim_at. now rewrite fim_find_none. Qed.

Lemma aget_of_nat {A} (l : list A) k : aget l (Z.of_nat k) = match nth_error l k with Some a => FOk a | None => FUB end.
Proof. unfold aget. destruct (Z.ltb_spec (Z.of_nat k) 0); [lia|]. now rewrite Nat2Z.id. Qed.
Lemma aset_of_nat {A} (l : list A) k v : (k < length l)%nat -> aset l (Z.of_nat k) v = FOk (set_nth l k v).
Proof.
  intros H. unfold aset. rewrite aget_of_nat, Nat2Z.id. destruct (nth_error l k) eqn:E; [reflexivity|].
  apply nth_error_None in E. lia.
Qed.
Lemma aget_0 {A} (a : A) l : aget (a :: l) 0 = FOk a. Proof. reflexivity. Qed.
Lemma aget_1 {A} (a b : A) l : aget (a :: b :: l) 1 = FOk b. Proof. reflexivity. Qed.
Lemma aget_2 {A} (a b c : A) l : aget (a :: b :: c :: l) 2 = FOk c. Proof. reflexivity. Qed.
Lemma aget_3 {A} (a b c d : A) l : aget (a :: b :: c :: d :: l) 3 = FOk d. Proof. reflexivity. Qed.
Lemma aset_0 {A} (a : A) l v : aset (a :: l) 0 v = FOk (v :: l). Proof. reflexivity. Qed.
Lemma aset_1 {A} (a b : A) l v : aset (a :: b :: l) 1 v = FOk (a :: v :: l). Proof. reflexivity. Qed.
Lemma aset_2 {A} (a b c : A) l v : aset (a :: b :: c :: l) 2 v = FOk (a :: b :: v :: l). Proof. reflexivity. Qed.
Lemma aset_3 {A} (a b c d : A) l v : aset (a :: b :: c :: d :: l) 3 v = FOk (a :: b :: c :: v :: l). Proof. reflexivity. Qed.
Ltac ax := repeat progress (cbn [fbind]; rewrite ?aget_0, ?aget_1, ?aget_2, ?aget_3, ?aset_0, ?aset_1, ?aset_2, ?aset_3).
Lemma nth_error_set_nth_ne {A} (l : list A) j k v : j <> k -> nth_error (set_nth l j v) k = nth_error l k.
Proof. revert j k. induction l as [|a r IH]; intros [|j] [|k] H; simpl; auto; try congruence. Qed.
Lemma nth_error_set_nth_eq {A} (l : list A) j v : (j < length l)%nat -> nth_error (set_nth l j v) j = Some v.
Proof. revert j. induction l as [|a r IH]; intros [|j] H; simpl in *; try lia; auto. apply IH. lia. Qed.
Lemma set_nth_length {A} (l : list A) j v : length (set_nth l j v) = length l.
Proof. revert j. induction l as [|a r IH]; intros [|j]; simpl; auto. Qed.

Lemma get_flux_ok f v : get_flux (length v) f v = FOk (map (fun c : fld => (fun i => f i * c i) : fld) v).
Proof. induction v as [|c r IH]; [reflexivity|]. cbn [length get_flux]. rewrite IH. reflexivity. Qed.

Lemma norm_loop_ok e : forall n v acc, (length n <= length v)%nat ->
  norm_loop e n v acc = FOk (fun i => acc i + dotl n (map (oe_trace e) v) i).
Proof.
  induction n as [|a r IH]; intros v acc H.
  - cbn. f_equal. extensionality i. lra.
  - destruct v as [|b q]; [simpl in H; lia|]. cbn [norm_loop]. rewrite IH by (simpl in H; lia). f_equal. extensionality i.
    cbn. unfold vadd, vmul. lra.
Qed.
Lemma get_adv_vel_norm_ok e v : (length (oe_normals e) <= length v)%nat ->
  get_adv_vel_norm e v = FOk (dotl (oe_normals e) (map (oe_trace e) v)).
Proof.
  intros H. unfold get_adv_vel_norm. replace (length (oe_normals e) <=? length v)%nat with true
    by (symmetry; apply Nat.leb_le; exact H).
  cbn [fassert fbind]. rewrite norm_loop_ok by exact H. f_equal. extensionality i. unfold vzero. lra.
Qed.
Lemma advect1_ok e s v f : (length (oe_normals e) <= length v)%nat -> fs_space s = length v ->
  advect1 e s {| ao_flux := v; ao_norm := v |} v f = FOk (advection e v f).
Proof.
  intros H1 H2. unfold advect1. cbn [ao_flux ao_norm]. rewrite H2, get_flux_ok. cbn [fbind].
  rewrite get_adv_vel_norm_ok by exact H1. reflexivity.
Qed.

(** Bvec and the drift velocity *)
Lemma load_B_ok s B : fs_space s = 3%nat -> B <> 0 ->
  load_B s B = FOk {| bf_vec := [0; 0; B]; bf_mag := Rabs B; bf_unit := [0; 0; B / Rabs B] |}.
Proof.
  intros H HB. unfold load_B. rewrite H.
  change (repeat 0 3) with [0; 0; 0]. change (aset [0; 0; 0] 2 B) with (FOk [0; 0; B]). cbn [fbind].
  change (aget [0; 0; B] 0) with (FOk 0). change (aget [0; 0; B] 1) with (FOk 0). change (aget [0; 0; B] 2) with (FOk B).
  cbn [fbind map].
  assert (E : sqrt (0 * 0 + 0 * 0 + B * B) = Rabs B).
  { replace (0 * 0 + 0 * 0 + B * B) with (Rsqr B) by (unfold Rsqr; ring). apply sqrt_Rsqr_abs. }
  rewrite E. assert (0 < Rabs B) by (apply Rabs_pos_lt; exact HB).
  replace (Rlt_bool 0 (Rabs B)) with true by (symmetry; apply Rlt_bool_true; assumption).
  f_equal. f_equal. f_equal; [|f_equal]; field; lra.
Qed.
Lemma load_B_UB s B : (fs_space s <= 2)%nat -> load_B s B = FUB.
Proof.
  intros H. unfold load_B, aset, aget. cbn [Z.ltb Z.compare].
  replace (nth_error (repeat 0 (fs_space s)) (Z.to_nat 2)) with (@None R); [reflexivity|].
  symmetry. apply nth_error_None. rewrite repeat_length. exact H.
Qed.
Lemma bdiv2_ok b B : B <> 0 -> bdiv2 b (Rabs B) = FOk (b / (B * B)).
Proof.
  intros H. assert (0 < Rabs B) by (apply Rabs_pos_lt; exact H). unfold bdiv2. rewrite rdiv_ok by lra. cbn [bind].
  rewrite rdiv_ok by lra. cbn [fnan]. f_equal. replace (B * B) with (Rabs B * Rabs B); [field; lra|].
  rewrite <- Rabs_mult. apply Rabs_pos_eq. pose proof (Rle_0_sqr B). unfold Rsqr in *. lra.
Qed.
Definition Bz (B : R) : bfield := {| bf_vec := [0; 0; B]; bf_mag := Rabs B; bf_unit := [0; 0; B / Rabs B] |}.
Lemma calc_ExB_ok e s B phi : fs_mesh s = 3%nat -> B <> 0 ->
  calc_ExB s (Bz B) (calc_E e s phi) = FOk (drift e B phi).
Proof.
  intros Hm HB. unfold calc_ExB, calc_E, Bz. cbn [bf_vec bf_mag]. rewrite Hm. cbn [Nat.eqb].
  change (aget [0; 0; B] 0) with (FOk 0). change (aget [0; 0; B] 1) with (FOk 0). change (aget [0; 0; B] 2) with (FOk B).
  cbn [fbind].
  change (aget [vneg (oe_deriv e 0 phi); vneg (oe_deriv e 1 phi); vneg (oe_deriv e 2 phi)] 0) with (FOk (vneg (oe_deriv e 0 phi))).
  change (aget [vneg (oe_deriv e 0 phi); vneg (oe_deriv e 1 phi); vneg (oe_deriv e 2 phi)] 1) with (FOk (vneg (oe_deriv e 1 phi))).
  change (aget [vneg (oe_deriv e 0 phi); vneg (oe_deriv e 1 phi); vneg (oe_deriv e 2 phi)] 2) with (FOk (vneg (oe_deriv e 2 phi))).
  cbn [fbind]. rewrite !bdiv2_ok by exact HB. cbn [fbind]. unfold drift, svtsvtp, vneg, dX, dY.
  f_equal. apply f_equal2; [|apply f_equal2; [|apply f_equal2; [|reflexivity]]]; extensionality i; field; exact HB.
Qed.
(** With |B| = 0 the drift velocity is not finite. *)
Lemma calc_ExB_nan s E b0 b1 b2 : length E = 3%nat ->
  calc_ExB s {| bf_vec := [b0; b1; b2]; bf_mag := 0; bf_unit := [0; 0; 0] |} E = FNan.
Proof.
  intros H. destruct E as [|e0 [|e1 [|e2 [|]]]]; try discriminate. unfold calc_ExB.
  cbn [bf_vec bf_mag]. rewrite !aget_0, !aget_1, !aget_2. cbn [fbind]. unfold bdiv2.
  assert (Hz : rdiv b2 0 = None) by (unfold rdiv; rewrite Req_bool_true by reflexivity; reflexivity).
  rewrite Hz. reflexivity.
Qed.

Lemma elec_is_drift u v0 v1 v2 : length u = 3%nat ->
  par_plus_ExB u vzero [v0; v1; v2] [vzero; vzero; vzero] = FOk [v0; v1; v2].
Proof.
  intros H. destruct u as [|a [|b [|c [|]]]]; try discriminate. cbn. unfold svtvp, vzero.
  f_equal. f_equal; [|f_equal; [|f_equal]]; extensionality i; ring.
Qed.

(** * Hasegawa-Wakatani *)
Definition hw_sess (s : fsess) : Prop :=
  session3 s /\ nth_error (fs_vars s) 0 = Some "ne"%string /\ nth_error (fs_vars s) 1 = Some "w"%string /\
  In "phi"%string (fs_vars s) /\ (fs_part s = true -> In "ne_src"%string (fs_vars s)).

Lemma in_index {A} (l : list A) a : In a l -> exists k, nth_error l k = Some a.
Proof. apply In_nth_error. Qed.

Lemma hw_common_ok e s d al ka B phys n w k : hw_sess s -> B <> 0 -> (length (oe_normals e) <= 3)%nat ->
  length phys = length (fs_vars s) -> nth_error (fs_vars s) k = Some "phi"%string ->
  let p := {| hw_B := Bz B; hw_d := d; hw_alpha := al; hw_kappa := ka |} in
  let phi := oe_helm e (df_00 d) (df_11 d) (Some (df_22 d)) w in
  hw_common e s p phys [n; w] = FOk (phi, [(fun i => - advection e (drift e B phi) n i) : fld;
     (fun i => - advection e (drift e B phi) w i) : fld]).
Proof.
  intros ((Hm & Hs & Hnd) & H0 & H1 & _) HB Hno Hlen Hk p phi. unfold hw_common.
  rewrite (fidx_ok s "phi" k Hnd Hk). cbn [fbind]. rewrite aget_of_nat.
  destruct (nth_error phys k) eqn:Ek.
  2:{ apply nth_error_None in Ek. assert (k < length (fs_vars s))%nat by (apply nth_error_Some; congruence). lia. }
  cbn [fbind]. pose proof (fidx_ok s "ne" 0 Hnd H0 : fidx s "ne" = FOk 0%Z) as I0.
  pose proof (fidx_ok s "w" 1 Hnd H1 : fidx s "w" = FOk 1%Z) as I1. rewrite I1. ax. unfold solve_phi. rewrite Hm. cbn [Nat.eqb hw_B hw_d p]. fold phi.
  rewrite (calc_ExB_ok e s B phi Hm HB). cbn [fbind]. unfold drift at 1. rewrite elec_is_drift by reflexivity.
  fold (drift e B phi). cbn [fbind map].
  assert (HA : forall f, advect1 e s {| ao_flux := drift e B phi; ao_norm := drift e B phi |} (drift e B phi) f
     = FOk (advection e (drift e B phi) f)) by (intros f; apply advect1_ok; [exact Hno | rewrite Hs; reflexivity]).
  unfold add_adv_terms. cbn [adv_collect adv_subtract]. rewrite !I0, !I1. ax. rewrite !HA. ax.
  unfold vsub, vzero. do 2 f_equal. apply f_equal2; [|apply f_equal2; [|reflexivity]]; extensionality i; lra.
Qed.

Definition hw_src (s : fsess) (phys : list fld) (src : fld) : Prop :=
  if fs_part s then field_named s phys "ne_src" src else src = vzero.

Lemma hw_tail_ok e s p phys phi a b src : hw_sess s -> hw_src s phys src ->
  hw_tail e s p phys phi [a; b] =
  FOk (phi, [(fun i => a i - hw_kappa p * dY e phi i + src i) : fld; b]).
Proof.
  intros ((Hm & Hs & Hnd) & H0 & H1 & _ & Hp) Hsrc. unfold hw_tail, upd.
  rewrite (fidx_ok s "ne" 0 Hnd H0 : fidx s "ne" = FOk 0%Z). ax.
  unfold hw_src in Hsrc. destruct (fs_part s).
  - destruct Hsrc as (k & Hk & Hf). cbn [add_particle_sources].
    rewrite (fidx_ok s ("ne" ++ "_src") k Hnd Hk). cbn [fbind].
    replace (0 <=? Z.of_nat k)%Z with true by (symmetry; apply Z.leb_le; lia).
    change (index_of "ne" hw_int_names) with (Some 0%nat). cbv iota. change (Z.of_nat 0) with 0%Z. ax.
    rewrite aget_of_nat, Hf. ax. reflexivity.
  - subst src. cbn. unfold vsub, smul, vzero, dY. do 2 f_equal. f_equal. extensionality i. lra.
Qed.

Lemma hw2d_ok e s d al ka B phys n w src nm : hw_sess s -> B <> 0 -> (length (oe_normals e) <= 3)%nat ->
  length phys = length (fs_vars s) -> nth_error phys 0 = Some nm -> hw_src s phys src ->
  let p := {| hw_B := Bz B; hw_d := d; hw_alpha := al; hw_kappa := ka |} in
  let phi := oe_helm e (df_00 d) (df_11 d) (Some (df_22 d)) w in
  hw2d_rhs e s p phys [n; w] =
  FOk (phi, [hw_dn e B ka phi n (coupling2 al phi nm) src; hw_dw e B phi w (coupling2 al phi nm)]).
Proof.
  intros Hse HB Hno Hlen Hnm Hsrc p phi. pose proof Hse as ((Hm & Hs & Hnd) & H0 & H1 & Hphi & Hp).
  apply In_nth_error in Hphi as (k & Hk). unfold hw2d_rhs.
  pose proof (hw_common_ok e s d al ka B phys n w k Hse HB Hno Hlen Hk) as Hc. cbv zeta in Hc. fold p in Hc. fold phi in Hc.
  rewrite Hc. cbn [fbind fst snd].
  rewrite (fidx_ok s "ne" 0 Hnd H0), (fidx_ok s "w" 1 Hnd H1), (fidx_ok s "phi" k Hnd Hk). cbn [fbind].
  rewrite aget_of_nat, Nat2Z.id. change (Z.of_nat 0) with 0%Z. change (Z.of_nat 1) with 1%Z. assert (k <> 0%nat) by (intros ->; congruence). rewrite nth_error_set_nth_ne by assumption.
  rewrite Hnm. cbn [fbind]. unfold upd. ax.
  rewrite (hw_tail_ok e s p _ phi _ _ src Hse).
  - unfold hw_dn, hw_dw, coupling2, smul, vadd, vsub. cbn [hw_kappa p]. reflexivity.
  - unfold hw_src in *. destruct (fs_part s); [|exact Hsrc]. destruct Hsrc as (j & Hj & Hf). exists j. split; [exact Hj|].
    rewrite nth_error_set_nth_ne; [exact Hf|]. intros ->. congruence.
Qed.

Definition coupling3 (e : oenv) (alpha : R) (phi n : fld) : fld :=
  fun i => - (alpha * oe_diffuse e hw3d_flux_diff (fun j => phi j - n j) i).
Lemma hw3d_ok e s d al ka B phys n w src : hw_sess s -> B <> 0 -> (length (oe_normals e) <= 3)%nat ->
  length phys = length (fs_vars s) -> hw_src s phys src ->
  let p := {| hw_B := Bz B; hw_d := d; hw_alpha := al; hw_kappa := ka |} in
  let phi := oe_helm e (df_00 d) (df_11 d) (Some (df_22 d)) w in
  hw3d_rhs e s p phys [n; w] =
  FOk (phi, [hw_dn e B ka phi n (coupling3 e al phi n) src; hw_dw e B phi w (coupling3 e al phi n)]).
Proof.
  intros Hse HB Hno Hlen Hsrc p phi. pose proof Hse as ((Hm & Hs & Hnd) & H0 & H1 & Hphi & Hp).
  apply In_nth_error in Hphi as (k & Hk). unfold hw3d_rhs.
  rewrite (fidx_ok s "ne" 0 Hnd H0), (fidx_ok s "w" 1 Hnd H1). cbn [fbind].
  change (Z.of_nat 0) with 0%Z. change (Z.of_nat 1) with 1%Z. ax.
  pose proof (hw_common_ok e s d al ka B phys n w k Hse HB Hno Hlen Hk) as Hc. cbv zeta in Hc. fold p in Hc. fold phi in Hc.
  rewrite Hc. cbn [fbind fst snd].
  rewrite (fidx_ok s "phi" k Hnd Hk). unfold upd. ax.
  rewrite (hw_tail_ok e s p _ phi _ _ src Hse).
  - unfold hw_dn, hw_dw, coupling3, smul, vadd, vsub. cbn [hw_kappa hw_alpha p]. reflexivity.
  - rewrite Nat2Z.id. unfold hw_src in *. destruct (fs_part s); [|exact Hsrc]. destruct Hsrc as (j & Hj & Hf). exists j. split; [exact Hj|].
    rewrite nth_error_set_nth_ne; [exact Hf|]. intros ->. congruence.
Qed.
