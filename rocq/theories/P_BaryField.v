(** C82: barycentric evaluation of fields and of their derivatives at particles. *)
From Verif Require Import M_BaryField S_BaryField L_RealBase L_Coord L_Loop L_Bary L_Bary2 L_Bary3 L_BaryField L_BaryField2 L_BaryField3 L_BaryField4.
From Flocq Require Import Core.Raux.
From Coq Require Import Lra Lia List ZArith Bool.
Import ListNotations.
Open Scope R_scope.

(** Construction. Whatever the field: if the constructor returns, every cell uses its own element's offset, and points and weights of an
    element of the same shape and numbers of points which agree with its own to 1e-10 (absolutely or relatively). *)
Definition within_tolerance (a b : R) : Prop := Rabs (a - b) < / 10 ^ 10 \/ (a <> 0 /\ Rabs (a - b) < / 10 ^ 10 * Rabs a).
Lemma combine_app_eq {A B} (a c : list A) : forall (b d : list B), length a = length b -> combine (a ++ c) (b ++ d) = combine a b ++ combine c d.
Proof. induction a as [|x a IH]; intros [|y b] d H; cbn in H; try discriminate; [reflexivity|]. cbn [app combine]. now rewrite IH by lia. Qed.
Lemma close_app a c b d : length a = length b -> close_all (a ++ c) (b ++ d) = true -> close_all a b = true /\ close_all c d = true.
Proof. intros H. unfold close_all. rewrite combine_app_eq, forallb_app by exact H. apply andb_true_iff. Qed.
Lemma close_nth a : forall b i, length a = length b -> close_all a b = true -> (i < length a)%nat -> rel_err (nth i a 0) (nth i b 0) < / 10 ^ 10.
Proof.
  induction a as [|x a IH]; intros [|y b] i Hl Hc Hi; cbn in Hl, Hi; try lia. unfold close_all in Hc. cbn [combine forallb fst snd] in Hc. apply andb_true_iff in Hc as [H1 H2].
  destruct i as [|i]; cbn [nth]; [revert H1; case Rlt_bool_spec; [auto|discriminate]|]. apply IH; [lia|exact H2|lia].
Qed.
Lemma close_flat (F G : nat -> list R) : forall ds, (forall d, In d ds -> length (F d) = length (G d)) -> close_all (flat_map F ds) (flat_map G ds) = true -> forall d, In d ds -> close_all (F d) (G d) = true.
Proof.
  induction ds as [|x ds IH]; intros Hl Hc d; [intros []|]. cbn [flat_map] in Hc. apply close_app in Hc as [H1 H2]; [|apply Hl; now left]. intros [<-|Hd]; [exact H1|]. apply IH; auto. intros; apply Hl; now right.
Qed.
Theorem C82_setup : forall ndim exps gids s, NoDup (map ex_gid exps) -> bary_setup ndim exps gids = FOk s ->
  length (bs_cells s) = length gids /\
  forall cell g e, nth_error gids cell = Some g -> element_of exps g e -> exists ci e0, nth_error (bs_cells s) cell = Some ci /\ In e0 exps /\
    ci_shape ci = ex_shape e /\ ci_off ci = ex_off e /\ ci_z ci = ex_z e0 /\ ci_bw ci = ex_bw e0 /\ ex_shape e0 = ex_shape e /\
    forall d, (d < ndim)%nat -> npts e0 d = npts e d /\ length (nth d (ex_bw e) []) = npts e d /\ (npts e d <= bs_max s)%nat /\
      forall i, (i < npts e d)%nat -> within_tolerance (pts e d i) (pts e0 d i) /\ within_tolerance (wts e d i) (wts e0 d i).
Proof.
  intros ndim exps gids s Hn H. destruct (setup_spec _ _ _ _ H) as (m & Hm & I1 & I2). split; [symmetry; eapply Forall2_len; eauto|].
  intros cell g e Hc He. assert (Hci : exists ci, nth_error (bs_cells s) cell = Some ci /\ exists e e0, nth_error exps (exp_of m g) = Some e /\ In e0 exps /\ cell_of ndim e e0 (bs_max s) ci).
  { clear - I2 Hc. revert cell Hc. induction I2 as [|g' ci gs cs P I2 IH]; intros [|cell] Hc; cbn in Hc; try discriminate; [injection Hc as <-; exists ci; split; [reflexivity|exact P]|]. apply IH. exact Hc. }
  destruct Hci as (ci & Ec & e' & e0 & H1 & H2 & (A & B & C & D & K & T & M)). rewrite (exp_of_spec exps m g e Hm Hn He) in H1. injection H1 as <-.
  apply key_dims in K as [K1 K2]. exists ci, e0. split; [exact Ec|]. split; [exact H2|]. split; [exact A|]. split; [exact D|]. split; [exact B|]. split; [exact C|]. split; [exact K1|].
  intros d Hd. destruct (M d Hd) as (M1 & M2 & M3). fold (npts e0 d) in M2. split; [auto|]. split; [exact M1|]. split; [rewrite <- K2; auto|].
  assert (Tol : forall a b, rel_err a b < / 10 ^ 10 -> within_tolerance a b).
  { intros a b Hab. unfold rel_err in Hab. revert Hab. case Rlt_bool_spec; intros Ha; unfold fmin; case Rlt_bool_spec; intros Hlt Hr; try (left; exact Hr); try (left; lra).
    - right. split; [intros ->; rewrite Rabs_R0 in Ha; lra|]. apply (Rmult_lt_compat_r (Rabs a)) in Hr; [|exact Ha]. unfold Rdiv in Hr. rewrite Rmult_assoc, Rinv_l, Rmult_1_r in Hr by lra. exact Hr. }
  assert (Hl : forall d, (d < ndim)%nat -> length (dir (ex_z e) d) = length (dir (ex_z e0) d) /\ length (dir (ex_bw e) d) = length (dir (ex_bw e0) d)).
  { intros d' Hd'. destruct (M d' Hd') as (N1 & _ & N2). specialize (K2 d' Hd'). unfold npts in K2. unfold dir in *. lia. }
  pose proof (close_flat (fun d => dir (ex_z e) d ++ dir (ex_bw e) d) (fun d => dir (ex_z e0) d ++ dir (ex_bw e0) d) (seq 0 ndim)) as Hfl. 
  specialize (Hfl ltac:(intros d' Hd'; apply in_seq in Hd'; cbv beta; rewrite !app_length; destruct (Hl d' ltac:(lia)); lia) T d ltac:(apply in_seq; lia)). cbv beta in Hfl. destruct (Hl d Hd) as [Hz Hw]. apply close_app in Hfl as [T1 T2]; [|exact Hz].
  intros i Hi. split; apply Tol.
  - apply (close_nth (dir (ex_z e) d) (dir (ex_z e0) d) i Hz T1 Hi).
  - apply (close_nth (dir (ex_bw e) d) (dir (ex_bw e0) d) i Hw T2). rewrite M1. exact Hi.
Qed.
Print Assumptions C82_setup.
(** A field whose points and weights depend on shape and number of points only is accepted, and every cell then has its own element's data. *)
Theorem C82_setup_succeeds : forall ndim exps gids, field_ok ndim exps -> (forall g, In g gids -> exists e, element_of exps g e) ->
  exists s, bary_setup ndim exps gids = FOk s /\
  forall cell g e, nth_error gids cell = Some g -> element_of exps g e -> exists ci, nth_error (bs_cells s) cell = Some ci /\
    ci_shape ci = ex_shape e /\ ci_z ci = ex_z e /\ ci_bw ci = ex_bw e /\ ci_off ci = ex_off e.
Proof.
  intros ndim exps gids Hf Hg. destruct (setup_ok ndim exps gids Hf Hg) as [s Hs]. exists s. split; [exact Hs|]. destruct (setup_cells ndim exps gids s Hf Hg Hs) as [_ H].
  intros cell g e Hc He. destruct (H cell g e Hc He) as (ci & A & B & C & D & E & _). exists ci. auto.
Qed.
Print Assumptions C82_setup_succeeds.
(** A field whose elements are not numbered in order is refused. *)
Theorem C82_setup_order : forall ndim exps gids i e, nth_error exps i = Some e -> ex_elmt e <> Z.of_nat i -> bary_setup ndim exps gids = FThrow.
Proof.
  intros ndim exps gids i e Hi He. unfold bary_setup. enough (H : build_map 0 exps [] = FThrow) by now rewrite H.
  assert (Hg : forall l k m i, nth_error l i = Some e -> ex_elmt e <> Z.of_nat (k + i) -> build_map k l m = FThrow).
  { clear. induction l as [|x l IH]; intros k m [|i] H1 H2; cbn in H1; try discriminate; cbn [build_map].
    - injection H1 as ->. rewrite Nat.add_0_r in H2. destruct (Z.eqb_spec (Z.of_nat k) (ex_elmt e)); [congruence|reflexivity].
    - destruct (Z.eqb _ _); [|reflexivity]. apply (IH _ _ i); [exact H1|]. replace (S k + i)%nat with (k + S i)%nat by lia. exact H2. }
  apply (Hg exps 0%nat [] i Hi). exact He.
Qed.
Print Assumptions C82_setup_order.

(** Evaluation: on every path, for any block size, local memory stride and contents, and values in the unused lanes, every particle of the call gets the
    value of every function in its element at its coordinates, and nothing else changes. *)
Theorem C82_evaluate : forall ndim dv stride N junk exps gids s c parts npc d, (ndim = 2 \/ ndim = 3)%nat -> (1 <= stride)%nat -> (1 <= N)%nat ->
  field_ok ndim exps -> (forall g, In g gids -> exists e, element_of exps g e) -> bary_setup ndim exps gids = FOk s ->
  call_ok ndim exps c -> parts_ok dv ndim gids parts npc ->
  exists d', bary_evaluate ndim dv stride N junk s c parts npc d = FOk d' /\ evaluated ndim exps gids c parts d d'.
Proof. intros. eapply evaluate_spec; eauto. Qed.
Print Assumptions C82_evaluate.
(** [field_value] names one value, and for values of a polynomial of lower degree than the number of points in each (collapsed) direction it is the polynomial. *)
Theorem C82_value : forall ndim e v xi, quadrature_ok ndim e ->
  (forall t t', field_value ndim e v xi t -> field_value ndim e v xi t' -> t = t') /\
  (forall a eta t, ndim = 2%nat -> generic_to_collapsed_2d (ex_shape e) (xi 0%nat, xi 1%nat) = Some eta ->
     (forall i0 i1, (i0 < npts e 0)%nat -> (i1 < npts e 1)%nat -> nth (ex_off e + (i1 * npts e 0 + i0)) v 0 = polynomial2 (npts e 0) (npts e 1) a (pts e 0 i0) (pts e 1 i1)) ->
     field_value ndim e v xi t -> t = polynomial2 (npts e 0) (npts e 1) a (fst eta) (snd eta)) /\
  (forall a eta t, ndim = 3%nat -> generic_to_collapsed_3d (ex_shape e) (xi 0%nat, xi 1%nat, xi 2%nat) = Some eta ->
     (forall i0 i1 i2, (i0 < npts e 0)%nat -> (i1 < npts e 1)%nat -> (i2 < npts e 2)%nat ->
        nth (ex_off e + (i2 * (npts e 0 * npts e 1) + i1 * npts e 0 + i0)) v 0 = polynomial3 (npts e 0) (npts e 1) (npts e 2) a (pts e 0 i0) (pts e 1 i1) (pts e 2 i2)) ->
     field_value ndim e v xi t -> t = polynomial3 (npts e 0) (npts e 1) (npts e 2) a (fst (fst eta)) (snd (fst eta)) (snd eta)).
Proof.
  intros ndim e v xi Q. split; [intros t t'; now apply field_value_unique|]. split.
  - intros a eta t En He Hv [(_ & eta' & E1 & w0 & w1 & W0 & W1 & ->)|(E & _)]; [|lia]. rewrite He in E1. injection E1 as <-. subst ndim.
    rewrite <- (tensor2_poly (npts e 0) (npts e 1) (pts e 0) (pts e 1) (fst eta) (snd eta) w0 w1 a); [apply tensor2_ext; auto| |]; intros j Hj; (eapply weights_mono; [apply Q; lia|apply Q; lia| |exact Hj]; eassumption).
  - intros a eta t En He Hv [(E & _)|(_ & eta' & E1 & w0 & w1 & w2 & W0 & W1 & W2 & ->)]; [lia|]. rewrite He in E1. injection E1 as <-. subst ndim.
    rewrite <- (tensor3_poly (npts e 0) (npts e 1) (npts e 2) (pts e 0) (pts e 1) (pts e 2) (fst (fst eta)) (snd (fst eta)) (snd eta) w0 w1 w2 a); [apply tensor3_ext; auto| | |]; intros j Hj; (eapply weights_mono; [apply Q; lia|apply Q; lia| |exact Hj]; eassumption).
Qed.
Print Assumptions C82_value.
Lemma pair_dec {A B} (da : forall x y : A, {x = y} + {x <> y}) (db : forall x y : B, {x = y} + {x <> y}) : forall x y : A * B, {x = y} + {x <> y}.
Proof. decide equality. Qed.
(** The particle-by-particle and the blocked loop leave the same data. *)
Theorem C82_paths_agree : forall stride stride' N N' junk junk' mem' exps gids s c parts npc d, (1 <= stride)%nat -> (1 <= stride')%nat -> (1 <= N)%nat -> (1 <= N')%nat ->
  field_ok 3 exps -> (forall g, In g gids -> exists e, element_of exps g e) -> bary_setup 3 exps gids = FOk s -> call_ok 3 exps c ->
  parts_ok CpuWholeGroup 3 gids parts npc ->
  let c' := {| bc_syms := bc_syms c; bc_phys := bc_phys c; bc_ref := bc_ref c; bc_mem := mem'; bc_ncomp := bc_ncomp c |} in
  exists d1 d2, bary_evaluate 3 GpuOrSubGroup stride N junk s c parts npc d = FOk d1 /\ bary_evaluate 3 CpuWholeGroup stride' N' junk' s c' parts npc d = FOk d2 /\
    forall sym cell comp layer, d1 sym cell comp layer = d2 sym cell comp layer.
Proof.
  intros stride stride' N N' junk junk' mem' exps gids s c parts npc d Hs Hs' HN HN' Hf Hg Hset Hc Hp c'.
  destruct (evaluate_spec 3 exps gids s c Hf Hg Hset Hc GpuOrSubGroup stride N junk parts npc d) as (d1 & E1 & G1 & U1); auto; [destruct Hp as [Hp _]; split; [exact Hp|discriminate]|].
  destruct (evaluate_spec 3 exps gids s c' Hf Hg Hset Hc CpuWholeGroup stride' N' junk' parts npc d) as (d2 & E2 & G2 & U2); auto. cbn [bc_syms bc_phys bc_ref c'] in *.
  exists d1, d2. split; [exact E1|]. split; [exact E2|]. intros sym cell comp layer.
  assert (Hdec : (In (cell, layer) parts /\ In (sym, Z.of_nat comp) (bc_syms c)) \/ ~ (In (cell, layer) parts /\ In (sym, Z.of_nat comp) (bc_syms c))).
  { destruct (in_dec (pair_dec Nat.eq_dec Nat.eq_dec) (cell, layer) parts) as [I1|I1]; [|right; intros []; auto].
    destruct (in_dec (pair_dec Nat.eq_dec Z.eq_dec) (sym, Z.of_nat comp) (bc_syms c)) as [I2|I2]; [left; auto|right; intros []; auto]. }
  destruct Hdec as [[I1 I2]|Hno]; [|rewrite U1, U2 by exact Hno; reflexivity].
  apply In_nth_error in I2 as [fx Hfx]. destruct Hc as (_ & Hl & _). destruct (nth_error (bc_phys c) fx) as [v|] eqn:Ev; [|exfalso; apply nth_error_None in Ev; rewrite Hl in Ev; apply nth_error_None in Ev; congruence].
  destruct Hp as [Hp1 _]. specialize (Hp1 _ _ I1). destruct (nth_error gids cell) as [g|] eqn:Eg; [|apply nth_error_None in Eg; lia]. destruct (Hg g (nth_error_In _ _ Eg)) as [e He].
  pose proof (G1 _ _ _ _ _ _ _ _ I1 Hfx Ev Eg He) as F1. pose proof (G2 _ _ _ _ _ _ _ _ I1 Hfx Ev Eg He) as F2. rewrite Nat2Z.id in F1, F2. eapply field_value_unique; [|exact F1|exact F2]. apply Hf, He.
Qed.
Print Assumptions C82_paths_agree.
(** FieldEvaluate with derivative: component k of the output gets the evaluation of the k-th derivative, the other components keep their values; a symbol with fewer
    components than dimensions is refused. *)
Theorem C82_gradient : forall ndim dv stride N junk exps gids s deriv ref mem ncomp sym parts npc d np, (ndim = 2 \/ ndim = 3)%nat -> (1 <= stride)%nat -> (1 <= N)%nat ->
  field_ok ndim exps -> (forall g, In g gids -> exists e, element_of exps g e) -> bary_setup ndim exps gids = FOk s -> parts_ok dv ndim gids parts npc ->
  (forall k, (k < ndim)%nat -> length (deriv k) = np) -> (forall e, In e exps -> (ex_off e + npoints ndim e <= np)%nat) ->
  ((ncomp sym < ndim)%nat -> evaluate_gradient ndim dv stride N junk s deriv ref mem ncomp sym parts npc d = FThrow) /\
  ((ndim <= ncomp sym)%nat -> exists d', evaluate_gradient ndim dv stride N junk s deriv ref mem ncomp sym parts npc d = FOk d' /\
     (forall cell layer k g e, In (cell, layer) parts -> (k < ndim)%nat -> nth_error gids cell = Some g -> element_of exps g e ->
        field_value ndim e (deriv k) (fun j => ref cell j layer) (d' sym cell k layer)) /\
     (forall sym' cell k layer, ~ (In (cell, layer) parts /\ sym' = sym /\ (k < ndim)%nat) -> d' sym' cell k layer = d sym' cell k layer)).
Proof.
  intros ndim dv stride N junk exps gids s deriv ref mem ncomp sym parts npc d np Hnd Hs HN Hf Hg Hset Hp Hl Hfit. unfold evaluate_gradient. split.
  - intros Hlt. destruct (Nat.leb_spec ndim (ncomp sym)); [lia|reflexivity].
  - intros Hle. destruct (Nat.leb_spec ndim (ncomp sym)); [|lia]. cbn [negb]. set (c := {| bc_syms := _ |}).
    assert (Hc : call_ok ndim exps c).
    { unfold call_ok, c. cbn [bc_syms bc_phys bc_ncomp]. split; [destruct Hnd as [-> | ->]; discriminate|]. split; [rewrite !map_length; reflexivity|]. split; [|split].
      - exists np. split; [|exact Hfit]. intros v Hv. apply in_map_iff in Hv as (k & <- & Hk). apply in_seq in Hk. apply Hl. lia.
      - destruct Hnd as [-> | ->]; cbn; repeat constructor; cbn; intuition congruence.
      - intros s' k Hin. apply in_map_iff in Hin as (dx & [= <- <-] & Hdx). apply in_seq in Hdx. lia. }
    destruct (evaluate_spec ndim exps gids s c Hf Hg Hset Hc dv stride N junk parts npc d Hnd Hs HN Hp) as (d' & E & G & U). exists d'. split; [exact E|]. split.
    + intros cell layer k g e Hin Hk Eg He. assert (Es : nth_error (seq 0 ndim) k = Some k) by (rewrite (nth_error_nth' _ 0%nat) by (rewrite seq_length; lia); rewrite seq_nth by lia; reflexivity).
      pose proof (G cell layer k sym (Z.of_nat k) (deriv k) g e Hin) as K. rewrite Nat2Z.id in K. apply K; auto; unfold c; cbn [bc_syms bc_phys]; rewrite nth_error_map, Es; reflexivity.
    + intros sym' cell k layer Hno. apply U. intros [H1 H2]. apply Hno. split; [exact H1|]. unfold c in H2. cbn [bc_syms] in H2. apply in_map_iff in H2 as (dx & [= -> E2] & Hdx). apply in_seq in Hdx. split; [reflexivity|lia].
Qed.
Print Assumptions C82_gradient.
(** Calls that are refused, leaving nothing written: no functions, a number of value arrays different from the number of outputs, arrays of different lengths. *)
Theorem C82_refused : forall ndim dv stride N junk s c parts npc d,
  bc_phys c = [] \/ length (bc_phys c) <> length (bc_syms c) \/ (exists v w, In v (bc_phys c) /\ In w (bc_phys c) /\ length v <> length w) \/ ~ (ndim = 2 \/ ndim = 3)%nat ->
  bary_evaluate ndim dv stride N junk s c parts npc d = FThrow.
Proof.
  intros ndim dv stride N junk s c parts npc d H. unfold bary_evaluate. destruct (Nat.eqb ndim 2 || Nat.eqb ndim 3)%bool eqn:En; [|reflexivity]. cbn [negb].
  apply orb_true_iff in En. rewrite !Nat.eqb_eq in En. unfold nfun. destruct (Nat.eqb_spec (length (bc_phys c)) (length (bc_syms c))) as [El|]; [|reflexivity]. cbn [negb].
  destruct (bc_phys c) as [|v0 vs] eqn:Ev; [reflexivity|]. destruct (forallb _ (v0 :: vs)) eqn:Ea; [|reflexivity]. exfalso.
  destruct H as [H|[H|[(v & w & H1 & H2 & H3)|H]]]; [discriminate|congruence| |tauto]. rewrite forallb_forall in Ea. pose proof (Ea v H1) as A1. pose proof (Ea w H2) as A2. apply Nat.eqb_eq in A1, A2. congruence.
Qed.
Print Assumptions C82_refused.
(** A component outside the output's range is not refused: the value is written outside the particle data. *)
Lemma write_all_bad c cell layer val d : (exists s k, In (s, k) (bc_syms c) /\ ~ (0 <= k < Z.of_nat (bc_ncomp c s))%Z) -> write_all c cell layer val d = FUB.
Proof.
  intros (s & k & Hin & Hbad). unfold write_all, nfun. generalize 0%nat as a. generalize (bc_syms c) as l, d, Hin. clear - Hbad.
  set (step := fun acc '(fx, (sym, comp)) => let! d := acc in if (Z.leb 0 comp && Z.ltb comp (Z.of_nat (bc_ncomp c sym)))%bool then FOk (pwrite d sym cell (Z.to_nat comp) layer (val fx)) else FUB).
  assert (Hub : forall l, fold_left step l FUB = FUB) by (induction l as [|[fx [sy co]] l IH]; [reflexivity|exact IH]).
  induction l as [|[sym comp] l IH]; intros d Hin a; [destruct Hin|]. cbn [length seq combine fold_left]. unfold step at 2. cbn [fbind]. destruct ((Z.leb 0 comp && Z.ltb comp (Z.of_nat (bc_ncomp c sym)))%bool) eqn:Eb; [|apply Hub].
  destruct Hin as [[= -> ->]|Hin]; [|apply IH; exact Hin]. exfalso. apply andb_true_iff in Eb as [B1 B2]. apply Z.leb_le in B1. apply Z.ltb_lt in B2. lia.
Qed.
Theorem C82_component_refuted : forall dv stride N junk exps gids s c parts npc d np, (1 <= stride)%nat ->
  field_ok 2 exps -> (forall g, In g gids -> exists e, element_of exps g e) -> bary_setup 2 exps gids = FOk s ->
  bc_syms c <> [] -> length (bc_phys c) = length (bc_syms c) -> (forall v, In v (bc_phys c) -> length v = np) -> (forall e, In e exps -> (ex_off e + npoints 2 e <= np)%nat) ->
  parts <> [] -> (forall cell layer, In (cell, layer) parts -> (cell < length gids)%nat) ->
  (exists sym k, In (sym, k) (bc_syms c) /\ ~ (0 <= k < Z.of_nat (bc_ncomp c sym))%Z) -> bary_evaluate 2 dv stride N junk s c parts npc d = FUB.
Proof.
  intros dv stride N junk exps gids s c parts npc d np Hs Hf Hg Hset A B C F Hp Hcell Hbad. unfold bary_evaluate. cbn [Nat.eqb orb negb]. unfold nfun. rewrite B, Nat.eqb_refl. cbn [negb].
  assert (Hph : phys_ok np c) by (split; [exact A|split; [exact B|exact C]]).
  destruct (bc_phys c) as [|v0 vs] eqn:Ev; [exfalso; destruct (bc_syms c); [congruence|discriminate]|]. rewrite <- Ev in *.
  assert (Ea : forallb (fun v => Nat.eqb (length v0) (length v)) (bc_phys c) = true) by (apply forallb_forall; intros v Hv; apply Nat.eqb_eq; rewrite (C v Hv); apply C; rewrite Ev; now left).
  rewrite Ea. cbn [negb]. destruct parts as [|[cell layer] ps]; [congruence|]. unfold floop. cbn [fold_left fbind].
  specialize (Hcell cell layer (or_introl eq_refl)). destruct (nth_error gids cell) as [g|] eqn:Eg; [|apply nth_error_None in Eg; lia]. destruct (Hg g (nth_error_In _ _ Eg)) as [e He].
  destruct (setup_cells 2 exps gids s Hf Hg Hset) as [_ H]. destruct (H cell g e Eg He) as (ci & E1 & X1 & X2 & X3 & X4 & M).
  assert (Hci : ci_ok 2 (bs_max s) np e ci) by (unfold ci_ok; destruct Hf as (_ & _ & Q & _); repeat (split; [first [assumption | apply Q; apply He]|]); apply F, He).
  destruct (particle_2d_spec (bs_max s) stride np (bs_cells s) c cell layer ci e Hs Hph E1 Hci) as (val & V & _). rewrite V, (write_all_bad c cell layer val d Hbad).
  rewrite floop_fail. reflexivity.
Qed.
Print Assumptions C82_component_refuted.
(** A cell whose geometry has no element in the field is not refused: it silently uses the field's first element. *)
Theorem C82_missing_geometry_refuted : forall ndim exps e0 g, field_ok ndim exps -> nth_error exps 0 = Some e0 -> ~ In g (map ex_gid exps) ->
  exists s, bary_setup ndim exps [g] = FOk s /\ exists ci, bs_cells s = [ci] /\ ci_shape ci = ex_shape e0 /\ ci_z ci = ex_z e0 /\ ci_bw ci = ex_bw e0 /\ ci_off ci = ex_off e0.
Proof.
  intros ndim exps e0 g (F1 & F2 & F3 & F4) H0 Hg. unfold bary_setup. destruct (build_map_ok exps 0 [] F1) as [m Hm]. rewrite Hm. cbn [fbind fold_left].
  assert (Ex : exp_of m g = 0%nat).
  { unfold exp_of. destruct (find _ m) as [[g' k]|] eqn:E; [|reflexivity]. apply find_some in E as [E1 E2]. cbn in E2. apply Z.eqb_eq in E2. subst g'. exfalso. apply Hg. destruct (build_map_spec _ _ _ _ Hm) as [-> _]. rewrite app_nil_r in E1. apply in_rev in E1. eapply in_combine_l; eauto. }
  unfold add_cell. rewrite Ex, H0. pose proof (nth_error_In _ _ H0) as Hin.
  assert (Eb : forallb (fun d => Nat.eqb (length (dir (ex_z e0) d)) (length (dir (ex_bw e0) d))) (seq 0 ndim) = true).
  { apply forallb_forall. intros d Hd. apply in_seq in Hd. apply Nat.eqb_eq. destruct (F3 e0 Hin d ltac:(lia)) as (_ & E & _). symmetry. exact E. }
  rewrite Eb. cbn [fassert fbind bs_map find]. eexists. split; [reflexivity|]. eexists. cbn. split; [reflexivity|]. auto.
Qed.
Print Assumptions C82_missing_geometry_refuted.

(** Two square elements, the second with other numbering; two functions, one particle in each cell. *)
Definition ex_e (gid elmt : Z) (off : nat) : expn := {| ex_gid := gid; ex_elmt := elmt; ex_shape := eQuadrilateral; ex_z := [[-1; 1]; [-1; 1]]; ex_bw := [[-1; 1]; [-1; 1]]; ex_off := off |}.
Definition ex_exps : list expn := [ex_e 40 0 0; ex_e 30 1 4].
Definition ex_call : bcall := {| bc_syms := [(7%nat, 1%Z); (9%nat, 0%Z)]; bc_phys := [[0; 0; 0; 0; 1; 3; 5; 7]; [2; 2; 2; 2; 4; 4; 4; 4]];
  bc_ref := fun _ _ _ => 0; bc_mem := fun _ _ _ => 5; bc_ncomp := fun _ => 2%nat |}.
Example C82_nonvacuous : field_ok 2 ex_exps /\ (forall g, In g [30; 40]%Z -> exists e, element_of ex_exps g e) /\ call_ok 2 ex_exps ex_call /\ parts_ok CpuWholeGroup 2 [30; 40]%Z [(0, 0); (1, 0)]%nat [1; 1]%nat /\
  exists s, bary_setup 2 ex_exps [30; 40]%Z = FOk s /\ forall d, exists d', bary_evaluate 2 CpuWholeGroup 1 1 (fun _ _ _ => (0, 0, 0)) s ex_call [(0, 0); (1, 0)]%nat [1; 1]%nat d = FOk d' /\
    d' 7%nat 0%nat 1%nat 0%nat = 4 /\ d' 9%nat 0%nat 0%nat 0%nat = 4 /\ d' 7%nat 1%nat 1%nat 0%nat = 0 /\ d' 9%nat 1%nat 0%nat 0%nat = 2.
Proof.
  assert (Q : forall g k o, quadrature_ok 2 (ex_e g k o)).
  { intros g k o d Hd. assert (Hd2 : (d = 0 \/ d = 1)%nat) by lia. assert (D : distinct 2 (fun i => nth i [-1; 1] 0)).
    { intros i j Hi Hj. destruct i as [|[|i]], j as [|[|j]]; try lia; cbn; intros; lra. }
    assert (B : barycentric 2 (fun i => nth i [-1; 1] 0) (fun i => nth i [-1; 1] 0)).
    { exists 2. split; [lra|]. intros i Hi. destruct i as [|[|i]]; try lia; cbn; field. }
    destruct Hd2 as [-> | ->]; (split; [cbn; lia|]; split; [reflexivity|]; split; [exact D|exact B]). }
  assert (Hf : field_ok 2 ex_exps).
  { split; [|split; [|split]].
    - intros [|[|i]] e He; cbn in He; try (injection He as <-; reflexivity). destruct i; discriminate.
    - cbn. repeat constructor; cbn; intuition lia.
    - intros e [<-|[<-|[]]]; apply Q.
    - intros e e' [<-|[<-|[]]] [<-|[<-|[]]] _ _; split; reflexivity. }
  assert (Hg : forall g, In g [30; 40]%Z -> exists e, element_of ex_exps g e).
  { intros g [<-|[<-|[]]]; [exists (ex_e 30 1 4)|exists (ex_e 40 0 0)]; split; try reflexivity; cbn; auto. }
  assert (Hc : call_ok 2 ex_exps ex_call).
  { split; [discriminate|]. split; [reflexivity|]. split; [|split].
    - exists 8%nat. split; [intros v [<-|[<-|[]]]; reflexivity|]. intros e [<-|[<-|[]]]; cbn; lia.
    - cbn. repeat constructor; cbn; intuition congruence.
    - intros s k [[= <- <-]|[[= <- <-]|[]]]; cbn; lia. }
  assert (Hp : parts_ok CpuWholeGroup 2 [30; 40]%Z [(0, 0); (1, 0)]%nat [1; 1]%nat).
  { split; [|discriminate]. intros cell layer [[= <- <-]|[[= <- <-]|[]]]; cbn; lia. }
  split; [exact Hf|]. split; [exact Hg|]. split; [exact Hc|]. split; [exact Hp|]. destruct (C82_setup_succeeds 2 ex_exps [30; 40]%Z Hf Hg) as (s & Hs & _). exists s. split; [exact Hs|]. intros d.
  destruct (C82_evaluate 2 CpuWholeGroup 1 1 (fun _ _ _ => (0, 0, 0)) ex_exps [30; 40]%Z s ex_call [(0, 0); (1, 0)]%nat [1; 1]%nat d (or_introl eq_refl) ltac:(lia) ltac:(lia) Hf Hg Hs Hc Hp) as (d' & E & G & _).
  exists d'. split; [exact E|].
  assert (Val : forall e v a, In e ex_exps -> (forall i0 i1, (i0 < 2)%nat -> (i1 < 2)%nat -> nth (ex_off e + (i1 * 2 + i0)) v 0 = polynomial2 2 2 a (nth i0 [-1; 1] 0) (nth i1 [-1; 1] 0)) -> forall t, field_value 2 e v (fun _ => 0) t -> t = a 0%nat 0%nat).
  { intros e v a He Hv t Ht. assert (Qe : quadrature_ok 2 e) by (destruct He as [<-|[<-|[]]]; apply Q). destruct (C82_value 2 e v (fun _ => 0) Qe) as (_ & P2 & _).
    assert (En : npts e 0 = 2%nat /\ npts e 1 = 2%nat /\ pts e 0 = (fun i => nth i [-1; 1] 0) /\ pts e 1 = (fun i => nth i [-1; 1] 0) /\ ex_shape e = eQuadrilateral) by (destruct He as [<-|[<-|[]]]; repeat split). destruct En as (N0 & N1 & Z0 & Z1 & Sh).
    assert (Et : generic_to_collapsed_2d (ex_shape e) (0, 0) = Some (0, 0)) by (rewrite Sh; unfold generic_to_collapsed_2d; rewrite rdiv_ok by apply guard_nonzero; reflexivity).
    specialize (P2 a (0, 0) t eq_refl Et). rewrite N0, N1, Z0, Z1 in P2. rewrite (P2 Hv Ht). unfold polynomial2. cbn. ring. }
  split; [|split; [|split]].
  - apply (Val (ex_e 30 1 4) [0; 0; 0; 0; 1; 3; 5; 7] (fun j k => match j, k with 0%nat, 0%nat => 4 | 1%nat, 0%nat => 1 | 0%nat, 1%nat => 2 | _, _ => 0 end)); [cbn; auto| |].
    + intros [|[|i]] [|[|j]] Hi Hj; try lia; unfold polynomial2; cbn; lra.
    + apply (G 0%nat 0%nat 0%nat 7%nat 1%Z [0; 0; 0; 0; 1; 3; 5; 7] 30%Z (ex_e 30 1 4)); try reflexivity; try (cbn; auto; fail). split; [cbn; auto|reflexivity].
  - apply (Val (ex_e 30 1 4) [2; 2; 2; 2; 4; 4; 4; 4] (fun j k => match j, k with 0%nat, 0%nat => 4 | _, _ => 0 end)); [cbn; auto| |].
    + intros [|[|i]] [|[|j]] Hi Hj; try lia; unfold polynomial2; cbn; lra.
    + apply (G 0%nat 0%nat 1%nat 9%nat 0%Z [2; 2; 2; 2; 4; 4; 4; 4] 30%Z (ex_e 30 1 4)); try reflexivity; try (cbn; auto; fail). split; [cbn; auto|reflexivity].
  - apply (Val (ex_e 40 0 0) [0; 0; 0; 0; 1; 3; 5; 7] (fun j k => 0)); [cbn; auto| |].
    + intros [|[|i]] [|[|j]] Hi Hj; try lia; unfold polynomial2; cbn; lra.
    + apply (G 1%nat 0%nat 0%nat 7%nat 1%Z [0; 0; 0; 0; 1; 3; 5; 7] 40%Z (ex_e 40 0 0)); try reflexivity; try (cbn; auto; fail). split; [cbn; auto|reflexivity].
  - apply (Val (ex_e 40 0 0) [2; 2; 2; 2; 4; 4; 4; 4] (fun j k => match j, k with 0%nat, 0%nat => 2 | _, _ => 0 end)); [cbn; auto| |].
    + intros [|[|i]] [|[|j]] Hi Hj; try lia; unfold polynomial2; cbn; lra.
    + apply (G 1%nat 0%nat 1%nat 9%nat 0%Z [2; 2; 2; 2; 4; 4; 4; 4] 40%Z (ex_e 40 0 0)); try reflexivity; try (cbn; auto; fail). split; [cbn; auto|reflexivity].
Qed.
