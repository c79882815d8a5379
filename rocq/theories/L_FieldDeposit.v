(** Lemmas for C101. *)
From Verif Require Import M_Bytes M_FieldDeposit S_FieldEval S_Basis S_Basis2 S_FieldDeposit L_Basis1 L_Basis3 L_Basis4 L_Basis5 L_Basis6 P_Basis L_Launch P_Launch L_FieldEval L_Jacobi L_FieldProject.
From Coq Require Import Arith Lia Lra ZArith Permutation List.
Import ListNotations.

Lemma items_nodup shapes L ndim g : (0 < L)%nat -> Forall (fun s => In s (ndim_shapes ndim)) shapes -> distinct g -> NoDup (items shapes L ndim g).
Proof.
  intros HL HF HD. assert (G : forall npart, NoDup (launches shapes npart L ndim)) by (intros npart; apply (C97_every_particle_once shapes npart L ndim HL HF)).
  destruct g as [npart|[|] npart sel]; cbn [items]; auto. cbn in HD. apply nodup_flat_map.
  - unfold ndim_shapes. destruct (Nat.eqb ndim 2); repeat constructor; cbn; intuition discriminate.
  - intros s _. apply nodup_flat_map; [apply nodup_cells_of| |].
    + intros cell _. apply FinFun.Injective_map_NoDup; [|apply HD]. intros a b E. congruence.
    + intros a b x _ _ H K. apply in_map_iff in H as (? & <- & _). apply in_map_iff in K as (? & E & _). congruence.
  - intros s t x _ _ H K. apply in_flat_map in H as (c & Hc & H). apply in_flat_map in K as (c' & Hc' & K).
    apply in_map_iff in H as (? & <- & _). apply in_map_iff in K as (? & E & _). apply in_cells_of in Hc, Hc'. congruence.
Qed.
Lemma items_lists shapes L ndim g ms : (0 < L)%nat -> Forall (fun s => In s (ndim_shapes ndim)) shapes -> distinct g ->
  lists_particles (length shapes) g ms -> Permutation (items shapes L ndim g) ms.
Proof.
  intros HL HF HD (ND & H). apply NoDup_Permutation; [apply items_nodup; auto|exact ND|]. intros [cell layer].
  rewrite H. apply items_spec; auto.
Qed.
Definition item_modes (z : bsetup) (d : pdats) (cell layer : nat) : list R :=
  match nth_error (bz_cells z) cell with
  | None => []
  | Some e => match collapse (ex_shape (fe_exp e)) (ref_position (ex_shape (fe_exp e)) (fun k => pd_ref d cell k layer)) with
      | None => [] | Some (e0, e1, e2) => smodes (ex_shape (fe_exp e)) (cell_P (fe_exp e)) e0 e1 e2 end
  end.
Definition item_off (z : bsetup) (cell : nat) : nat := match nth_error (bz_cells z) cell with None => O | Some e => fe_off e end.
Definition iadds (z : bsetup) (d : pdats) (s k : nat) (it : nat * nat) : list (nat * R) :=
  let bs := item_modes z d (fst it) (snd it) in
  combine (seq (item_off z (fst it)) (length bs)) (map (fun b => pd_in d s (fst it) k (snd it) * b) bs).
(** What is needed of one item. *)
Definition item_good (z : bsetup) (n : nat) (d : pdats) (it : nat * nat) : Prop :=
  exists e, nth_error (bz_cells z) (fst it) = Some e /\ nth_error (cs_nummodes (bz_st z)) (fst it) = Some (cell_P (fe_exp e)) /\
    handled (map fe_exp (bz_cells z)) (bz_st z) (fe_exp e) /\
    (fe_off e + snd (total_modes_s (ex_shape (fe_exp e)) (cell_P (fe_exp e))) <= n)%nat /\
    clear (ex_shape (fe_exp e)) (ref_position (ex_shape (fe_exp e)) (fun k => pd_ref d (fst it) k (snd it))).
Lemma deposit_item_ok z n d s c it : item_good z n d it -> (0 <= c < Z.of_nat (pd_ncomp d s))%Z ->
  deposit_item z d s c it = Some (map inj (iadds z d s (Z.to_nat c) it)).
Proof.
  destruct it as [cell layer]. intros (e & He & HP & Hh & _ & [[e0 e1] e2] & Hc & Hr) Hk. cbn [fst snd] in *. unfold deposit_item, iadds, item_modes, item_off. cbn [fst snd]. rewrite He, HP.
  destruct (Z.leb_spec 0 c); [|lia]. destruct (Z.ltb_spec c (Z.of_nat (pd_ncomp d s))); [|lia]. cbn [andb].
  pose proof (handled_tab _ _ _ Hh) as HT. unfold ctor_table. rewrite (project_particle_ok _ _ _ _ _ _ e0 e1 e2 HT Hc Hr).
  rewrite map_addsof, Hc. reflexivity.
Qed.
Lemma deposit_items_ok z n d s c its : (forall it, In it its -> item_good z n d it) -> (0 <= c < Z.of_nat (pd_ncomp d s))%Z ->
  deposit_items z d s c its = Some (map inj (flat_map (iadds z d s (Z.to_nat c)) its)).
Proof.
  intros H Hk. induction its as [|it its IH]; cbn [deposit_items flat_map map]; [reflexivity|].
  rewrite (deposit_item_ok z n) by (auto; apply H; left; auto). rewrite IH by (intros; apply H; right; auto). rewrite map_app. reflexivity.
Qed.
Lemma iadds_range z n d s k it kv : item_good z n d it -> In kv (iadds z d s k it) -> (fst kv < n)%nat.
Proof.
  intros (e & He & _ & _ & Ho & [[e0 e1] e2] & Hc & _) H. unfold iadds in H. destruct kv as [j w]. apply in_combine_l in H. apply in_seq in H. cbn [fst].
  unfold item_modes, item_off in H. rewrite He, Hc, count_smodes in H. lia.
Qed.
Definition deposited (z : bsetup) (d : pdats) (s k : nat) (its : list (nat * nat)) (i : nat) : R :=
  Lsum (fun it => contrib (item_modes z d (fst it) (snd it)) (item_off z (fst it)) (pd_in d s (fst it) k (snd it)) i) its.
Lemma deposit_ok z n L ndim d g sched s c : (forall it, In it (items (cell_shapes (bz_cells z)) L ndim g) -> item_good z n d it) ->
  (0 <= c < Z.of_nat (pd_ncomp d s))%Z -> (forall l, Permutation (sched l) l) ->
  deposit z n L ndim d g sched s c = Some (map Some (map (deposited z d s (Z.to_nat c) (items (cell_shapes (bz_cells z)) L ndim g)) (seq 0 n))).
Proof.
  intros H Hk Hs. unfold deposit. set (its := items _ _ _ _) in *. rewrite (deposit_items_ok z n d s c its H Hk).
  rewrite (project_run_ok n (flat_map (iadds z d s (Z.to_nat c)) its)); [|apply Hs|].
  - do 2 f_equal. apply map_ext. intros i. unfold deposited. clear H. clearbody its. induction its as [|it its IH]; [reflexivity|].
    cbn [flat_map Lsum fold_right]. rewrite csum_app. unfold Lsum in IH. rewrite IH. f_equal. unfold iadds. apply csum_comb.
  - intros kv Hin. apply in_flat_map in Hin as (it & Hit & Hin). apply (iadds_range z n d s (Z.to_nat c) it kv); auto.
Qed.
Lemma dot_deposited z n d s k its u : (forall it, In it its -> item_good z n d it) ->
  dot u (map (deposited z d s k its) (seq 0 n)) = Lsum (fun it => pd_in d s (fst it) k (snd it) * dot (skipn (item_off z (fst it)) u) (item_modes z d (fst it) (snd it))) its.
Proof.
  intros H. unfold deposited. rewrite dot_Lsum. apply Lsum_ext. intros it Hit. apply dot_contrib.
  destruct (H it Hit) as (e & He & _ & _ & Ho & [[e0 e1] e2] & Hc & _). unfold item_off, item_modes. rewrite He, Hc, count_smodes. exact Ho.
Qed.

(** * The comparison of the fields *)
Lemma check_ok b : assert_that b = Ok tt <-> b = true.
Proof. destruct b; cbn; split; congruence. Qed.
Lemma obind_ok {B} (x : outcome unit) (f : unit -> outcome B) r : obind x f = Ok r <-> x = Ok tt /\ f tt = Ok r.
Proof. destruct x as [[]| |]; cbn; split; intros H; try (destruct H; congruence); try discriminate; auto. Qed.
Lemma obind_not_ok {B} (x : outcome unit) (f : unit -> outcome B) : obind x f = AssertFail <-> x = AssertFail \/ (x = Ok tt /\ f tt = AssertFail).
Proof. destruct x as [[]| |]; cbn; split; intros H; try (destruct H as [H|[H K]]; congruence); try discriminate; auto. Qed.
Lemma check_bases_ok b0 bt t0 t : forall todo dx, (dx + todo <= length b0)%nat -> (dx + todo <= length bt)%nat -> (dx + todo <= length t0)%nat -> (dx + todo <= length t)%nat ->
  (check_bases todo dx b0 bt t0 t = Ok tt \/ check_bases todo dx b0 bt t0 t = AssertFail) /\
  (check_bases todo dx b0 bt t0 t = Ok tt <-> forall k, (dx <= k < dx + todo)%nat -> option_map fst (nth_error bt k) = option_map fst (nth_error b0 k) /\ nth_error t k = nth_error t0 k).
Proof.
  induction todo as [|todo IH]; intros dx H1 H2 H3 H4; cbn [check_bases].
  - split; [left; reflexivity|]. split; [intros _ k Hk; lia|reflexivity].
  - destruct (nth_error bt dx) as [[m x]|] eqn:E1; [|apply nth_error_None in E1; lia]. destruct (nth_error b0 dx) as [[m0 x0]|] eqn:E2; [|apply nth_error_None in E2; lia].
    destruct (nth_error t dx) as [y|] eqn:E3; [|apply nth_error_None in E3; lia]. destruct (nth_error t0 dx) as [y0|] eqn:E4; [|apply nth_error_None in E4; lia].
    destruct (IH (S dx) ltac:(lia) ltac:(lia) ltac:(lia) ltac:(lia)) as (A & B).
    destruct (Nat.eqb_spec m m0) as [->|N]; cbn [assert_that obind].
    2:{ split; [right; reflexivity|]. split; [discriminate|]. intros H. destruct (H dx ltac:(lia)) as (K & _). rewrite E1, E2 in K. cbn in K. congruence. }
    destruct (Z.eqb_spec y y0) as [->|N]; cbn [assert_that obind].
    2:{ split; [right; reflexivity|]. split; [discriminate|]. intros H. destruct (H dx ltac:(lia)) as (_ & K). rewrite E3, E4 in K. congruence. }
    split; [exact A|]. rewrite B. split; intros H k Hk.
    + destruct (Nat.eq_dec k dx) as [->|N]; [rewrite E1, E2, E3, E4; auto|]. apply H. lia.
    + apply H. lia.
Qed.
Lemma check_exps_ok ndim b : forall e0 e t0 t, length e = length e0 -> length t0 = length e0 -> length t = length e0 ->
  (forall x, In x (e0 ++ e) -> (ndim <= length (ex_base (fe_exp x)))%nat) -> (forall x, In x (t0 ++ t) -> (ndim <= length x)%nat) ->
  (check_exps ndim b e0 e t0 t = Ok tt \/ check_exps ndim b e0 e t0 t = AssertFail) /\
  (check_exps ndim b e0 e t0 t = Ok tt <-> forall k x0 x y0 y, nth_error e0 k = Some x0 -> nth_error e k = Some x -> nth_error t0 k = Some y0 -> nth_error t k = Some y ->
    b = true /\ fe_gid x = fe_gid x0 /\ forall dx, (dx < ndim)%nat ->
      option_map fst (nth_error (ex_base (fe_exp x)) dx) = option_map fst (nth_error (ex_base (fe_exp x0)) dx) /\ nth_error y dx = nth_error y0 dx).
Proof.
  induction e0 as [|x0 e0 IH]; intros [|x e] [|y0 t0] [|y t] L1 L2 L3 He Ht; try discriminate; cbn [check_exps].
  - split; [left; reflexivity|]. split; [intros _ [|k] ? ? ? ?; discriminate|reflexivity].
  - assert (A : (ndim <= length (ex_base (fe_exp x0)))%nat) by (apply He; left; reflexivity).
    assert (B : (ndim <= length (ex_base (fe_exp x)))%nat) by (apply He; apply in_or_app; right; left; reflexivity).
    assert (C : (ndim <= length y0)%nat) by (apply Ht; left; reflexivity).
    assert (D : (ndim <= length y)%nat) by (apply Ht; apply in_or_app; right; left; reflexivity).
    destruct (IH e t0 t ltac:(cbn in *; lia) ltac:(cbn in *; lia) ltac:(cbn in *; lia)) as (I1 & I2).
    { intros w Hw. apply He. apply in_app_iff in Hw as [Hw|Hw]; [right; apply in_or_app; auto|]. right. apply in_or_app. right. right. exact Hw. }
    { intros w Hw. apply Ht. apply in_app_iff in Hw as [Hw|Hw]; [right; apply in_or_app; auto|]. right. apply in_or_app. right. right. exact Hw. }
    destruct (check_bases_ok (ex_base (fe_exp x0)) (ex_base (fe_exp x)) y0 y ndim 0 ltac:(lia) ltac:(lia) ltac:(lia) ltac:(lia)) as (J1 & J2).
    destruct b; cbn [assert_that obind].
    2:{ split; [right; reflexivity|]. split; [discriminate|]. intros H. destruct (H 0%nat x0 x y0 y eq_refl eq_refl eq_refl eq_refl) as (K & _). discriminate. }
    destruct (Z.eqb_spec (fe_gid x) (fe_gid x0)) as [Eg|Eg]; cbn [assert_that obind].
    2:{ split; [right; reflexivity|]. split; [discriminate|]. intros H. destruct (H 0%nat x0 x y0 y eq_refl eq_refl eq_refl eq_refl) as (_ & K & _). contradiction. }
    split.
    + destruct J1 as [J1|J1]; rewrite J1; cbn [obind]; auto.
    + rewrite obind_ok, I2, J2. split.
      * intros (H1 & H2) [|k] a0 a c0 c G1 G2 G3 G4; cbn in G1, G2, G3, G4; [|eapply H2; eauto]. injection G1 as <-. injection G2 as <-. injection G3 as <-. injection G4 as <-.
        split; [reflexivity|]. split; [exact Eg|]. intros dx Hd. apply H1. lia.
      * intros H. split.
        -- intros k Hk. destruct (H 0%nat x0 x y0 y eq_refl eq_refl eq_refl eq_refl) as (_ & _ & K). apply K. lia.
        -- intros k a0 a c0 c G1 G2 G3 G4. apply (H (S k) a0 a c0 c); auto.
Qed.
Lemma check_field_ok f0 f : has_bases (pf_coordim f0) f0 -> has_bases (pf_coordim f0) f ->
  (check_field f0 f = Ok tt \/ check_field f0 f = AssertFail) /\ (check_field f0 f = Ok tt <-> same_space f0 f).
Proof.
  intros (A1 & A2 & A3) (B1 & B2 & B3). unfold check_field, same_space.
  destruct (Nat.eqb_spec (pf_ncoeffs f) (pf_ncoeffs f0)); cbn [assert_that obind]; [|split; [auto|split; [discriminate|intros (H & _); contradiction]]].
  destruct (Nat.eqb_spec (pf_npoints f) (pf_npoints f0)); cbn [assert_that obind]; [|split; [auto|split; [discriminate|intros (_ & H & _); contradiction]]].
  destruct (Nat.eqb_spec (length (pf_exps f)) (length (pf_exps f0))) as [El|N]; cbn [assert_that obind]; [|split; [auto|split; [discriminate|intros (_ & _ & H & _); contradiction]]].
  destruct (check_exps_ok (pf_coordim f0) (Nat.eqb (pf_coordim f) (pf_coordim f0)) (pf_exps f0) (pf_exps f) (pf_types f0) (pf_types f) El) as (C1 & C2); try congruence.
  { intros x H. apply in_app_iff in H as [H|H]; auto. } { intros x H. apply in_app_iff in H as [H|H]; auto. }
  split; [exact C1|]. rewrite C2. split.
  - intros H. split; [auto|]. split; [auto|]. split; [auto|]. intros k a0 a c0 c G1 G2 G3 G4. destruct (H k a0 a c0 c G1 G2 G3 G4) as (K1 & K2). apply Nat.eqb_eq in K1. auto.
  - intros (_ & _ & _ & H) k a0 a c0 c G1 G2 G3 G4. destruct (H k a0 a c0 c G1 G2 G3 G4) as (K1 & K2). rewrite Nat.eqb_eq. auto.
Qed.
Lemma check_fields_ok f0 : has_bases (pf_coordim f0) f0 -> forall fs, (forall f, In f fs -> has_bases (pf_coordim f0) f) ->
  (check_fields f0 fs = Ok tt \/ check_fields f0 fs = AssertFail) /\ (check_fields f0 fs = Ok tt <-> forall f, In f fs -> same_space f0 f).
Proof.
  intros H0. induction fs as [|f fs IH]; intros H; cbn [check_fields].
  - split; [auto|]. split; [intros _ f []|reflexivity].
  - destruct IH as (I1 & I2); [intros; apply H; right; auto|]. destruct (check_field_ok f0 f H0 (H f (or_introl eq_refl))) as (J1 & J2). split.
    + destruct J1 as [J1|J1]; rewrite J1; cbn [obind]; auto.
    + rewrite obind_ok, I2, J2. split; [intros (A & B) g [<-|G]; auto|]. intros A. split; [apply A; left; auto|]. intros g G. apply A. right. auto.
Qed.
Lemma same_space_refl f : same_space f f.
Proof.
  split; [reflexivity|]. split; [reflexivity|]. split; [reflexivity|]. intros k e0 e t0 t H1 H2 H3 H4. rewrite H1 in H2. injection H2 as <-. rewrite H3 in H4. injection H4 as <-.
  split; [reflexivity|]. split; [reflexivity|]. intros dx _. auto.
Qed.

(** * Affine functions with any number of modes *)
Ltac killv := intros; repeat (first [apply rsum_zero; intros]);
  match goal with |- b2r ?b * _ * _ = 0 => replace b with false by (symmetry; repeat first [rewrite andb_false_iff|rewrite orb_false_iff|rewrite Nat.ltb_ge|rewrite Nat.eqb_neq]; lia) end; cbn [b2r]; lra.
Definition uncollapse (s : shape) (e0 e1 e2 : R) : R * R * R :=
  match s with
  | Tri => ((1 + e0) * (1 - e1) / 2 - 1, e1, 0) | Quad => (e0, e1, 0) | Hex => (e0, e1, e2)
  | Pyr => ((1 + e0) * (1 - e2) / 2 - 1, (1 + e1) * (1 - e2) / 2 - 1, e2)
  | Prism => ((1 + e0) * (1 - e2) / 2 - 1, e1, e2)
  | Tet => ((1 + e0) * (1 - e1) * (1 - e2) / 4 - 1, (1 + e1) * (1 - e2) / 2 - 1, e2)
  end.
Lemma affine_all s P u0 u1 u2 u3 e0 e1 e2 : (2 <= P)%nat ->
  dot (vertex_dofs s P (affine u0 u1 u2 u3)) (smodes s P e0 e1 e2) = affine u0 u1 u2 u3 (uncollapse s e0 e1 e2).
Proof.
  intros HP. destruct s; cbn [vertex_dofs smodes]; unfold modes_tri, modes_quad, modes_hex, modes_pyr, modes_prism, modes_tet;
    rewrite dot_map_map; rewrite ?Lsum_idx2, ?Lsum_idx3; rewrite (rs2 P) by (try lia; killv).
  - rewrite (rs2 (P - 0)), (rs1 (P - 1)) by (try lia; killv). cbn -[Rdiv Jacobi]. lra.
  - rewrite !(rs2 P) by (try lia; killv). cbn -[Rdiv Jacobi]. lra.
  - rewrite !(rs2 P) by (try lia; killv). cbn -[Rdiv Jacobi]. lra.
  - rewrite !(rs2 P) by (try lia; killv). cbn [Nat.max]. rewrite (rs2 (P - 0)), !(rs1 (P - 1)) by (try lia; killv). cbn -[Rdiv Jacobi]. lra.
  - rewrite !(rs2 P) by (try lia; killv). rewrite !(rs2 (P - 0)), !(rs1 (P - 1)) by (try lia; killv). cbn -[Rdiv Jacobi]. lra.
  - rewrite (rs2 (P - 0)), (rs1 (P - 1)) by (try lia; killv). rewrite (rs2 (P - 0 - 0)), (rs1 (P - 0 - 1)), (rs1 (P - 1 - 0)) by (try lia; killv). cbn -[Rdiv Jacobi]. lra.
Qed.
