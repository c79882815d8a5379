(** C108: residuals of the Newton mappings in double precision. *)
From Flocq Require Import Core.
From Verif Require Import M_RealBase L_RealBase M_Grid M_Double S_Double L_Double L_Double2 L_DoubleGrid M_DoubleExpr L_DoubleExpr M_NewtonGenD M_NewtonD S_NewtonD L_NewtonD P_Double.
From Coq Require Import List Bool.
From Verif Require Import M_NewtonGenD.
Import ListNotations.
Open Scope R_scope.

(** the residual function used for an element (M_NewtonD); [None] for the pyramid, which is not modelled in doubles *)
Definition linear_resid_d (e : elem) (contract : list bool -> bool) (c : nat -> nat -> R) (s xi p : R * R * R) : option (R * (R * R * R)) :=
  match e with
  | EQuad => quad_resid_d contract c s xi p | ETet => tet_resid_d contract c s xi p | EPrism => prism_resid_d contract c s xi p
  | EHex => hex_resid_d contract c (comp s 0) xi p | EPyr => None
  end.
(** the scaling of component [a] of the residual: the hexahedron has one for all *)
Definition scaling (e : elem) (s : R * R * R) (a : nat) : R := match e with EHex => comp s 0 | _ => comp s a end.
Definition scalings_ok (nd : nat) (S : nat -> R) : Prop := forall a, (a < nd)%nat -> 0 < S a <= 2 ^ 480.
(** what the theorems below say of a residual computed for the exact residual [F] *)
Definition good_residual (nd : nat) (k M : R) (S F : nat -> R) (r : R) (f : R * R * R) : Prop :=
  (forall a, (a < nd)%nat -> is_double (comp f a) /\ Rabs (comp f a - F a) <= k * unit_roundoff * M) /\
  (forall tol, r <= tol -> forall a, (a < nd)%nat ->
     Rabs (F a) * S a <= (1 + 2 * unit_roundoff) * tol + / 2 ^ 1074 + k * unit_roundoff * M * S a) /\
  (forall tol, (forall a, (a < nd)%nat -> Rabs (F a) * S a + k * unit_roundoff * M * S a + / 2 ^ 1074 <= (1 - 2 * unit_roundoff) * tol) -> r <= tol).
Lemma good nd k M S F r f : near_vec nd (k * unit_roundoff * M) M F f -> measure_of nd S f r -> (forall a, (a < nd)%nat -> 0 < S a) -> good_residual nd k M S F r f.
Proof.
  intros N Me HS. split; [intros a Ha; destruct (N a Ha) as (A & B & _); auto|]. split.
  - intros tol Ht a Ha. destruct (N a Ha) as (_ & B & _). pose proof (proj1 (Me tol) Ht a Ha) as R. pose proof (HS a Ha) as S0.
    apply rnd_le_tol in R; [|apply Rmult_le_pos; [apply Rabs_pos|lra]].
    assert (X : Rabs (F a) <= Rabs (comp f a) + k * unit_roundoff * M).
    { replace (F a) with (comp f a + - (comp f a - F a)) by ring. eapply Rle_trans; [apply Rabs_triang|]. rewrite Rabs_Ropp. lra. }
    apply Rmult_le_compat_r with (r := S a) in X; [|lra]. rewrite Rmult_plus_distr_r in X. lra.
  - intros tol H. apply (Me tol). intros a Ha. destruct (N a Ha) as (_ & B & _). pose proof (HS a Ha) as S0. specialize (H a Ha).
    apply tol_rnd_le; [apply Rmult_le_pos; [apply Rabs_pos|lra]|].
    assert (X : Rabs (comp f a) <= Rabs (F a) + k * unit_roundoff * M).
    { replace (comp f a) with (F a + (comp f a - F a)) by ring. eapply Rle_trans; [apply Rabs_triang|]. lra. }
    apply Rmult_le_compat_r with (r := S a) in X; [|lra]. rewrite Rmult_plus_distr_r in X. lra.
Qed.
Lemma scale_of_ok S M : 0 < S <= 2 ^ 480 -> scale_ok S M.
Proof. intros [A B]. rewrite <- (bpow_nat 480) in B. split; auto. Qed.

(** The computed residual is X(xi) - p up to a stated number of roundings of the largest coordinate, however products are contracted; the
    exit test on it passes only if the exact scaled residual is within the tolerance up to rounding, and passes if it is by more than rounding. *)
Theorem C108_residual (e : elem) (c : nat -> nat -> R) (s xi p : R * R * R) (M : R) (contract : list bool -> bool) : e <> EPyr ->
  inputs_ok (nverts e) (ndims e) c xi p M -> scalings_ok (ndims e) (scaling e s) ->
  exists r f, linear_resid_d e contract c s xi p = Some (r, f) /\
    good_residual (ndims e) (roundings e) M (scaling e s) (fun a => Xmap e c xi a - comp p a) r f.
Proof.
  intros He I Hs. pose proof (M_range _ _ _ _ _ _ I) as [_ MR]. destruct e; try (exfalso; apply He; reflexivity); cbn [ndims nverts scaling linear_resid_d roundings] in *.
  - destruct (eval2_ok 4 36 quad_e c xi p M contract (fun a => Xmap EQuad c xi a - comp p a) chk_quad I) as (f & A & N); [apply quad_val|apply quad_val|].
    destruct (meas2 s f M _ _ N MR) as (r & B & Me); [intros a Ha; apply scale_of_ok, (Hs a Ha)|].
    unfold quad_resid_d. rewrite A. cbn [bind]. rewrite B. cbn [bind]. exists r, f. split; [reflexivity|]. apply good; auto. intros a Ha. apply (Hs a Ha).
  - destruct (eval3_ok 4 42 tet_e c xi p M contract (fun a => Xmap ETet c xi a - comp p a) chk_tet I) as (f & A & N); [apply tet_val|apply tet_val|apply tet_val|].
    destruct (meas3 s f M _ _ N MR) as (r & B & Me); [intros a Ha; apply scale_of_ok, (Hs a Ha)|].
    unfold tet_resid_d. rewrite A. cbn [bind]. rewrite B. cbn [bind]. exists r, f. split; [reflexivity|]. apply good; auto. intros a Ha. apply (Hs a Ha).
  - destruct (eval3_ok 6 58 prism_e c xi p M contract (fun a => Xmap EPrism c xi a - comp p a) chk_prism I) as (f & A & N); [apply prism_val|apply prism_val|apply prism_val|].
    destruct (meas3 s f M _ _ N MR) as (r & B & Me); [intros a Ha; apply scale_of_ok, (Hs a Ha)|].
    unfold prism_resid_d. rewrite A. cbn [bind]. rewrite B. cbn [bind]. exists r, f. split; [reflexivity|]. apply good; auto. intros a Ha. apply (Hs a Ha).
  - destruct (eval3_ok 8 102 hex_e c xi p M contract (fun a => Xmap EHex c xi a - comp p a) chk_hex I) as (f & A & N); [apply hex_val|apply hex_val|apply hex_val|].
    destruct (meas_hex (comp s 0) f M _ _ N MR) as (r & B & Me); [apply scale_of_ok, (Hs 0%nat ltac:(lia))|].
    unfold hex_resid_d. rewrite A. cbn [bind]. rewrite B. cbn [bind]. exists r, f. split; [reflexivity|]. apply good; auto. intros a Ha. apply (Hs a Ha).
Qed.
Print Assumptions C108_residual.
(** The quadrilateral embedded in space, with the stored normal as fifth vertex, and the triangle embedded in space. *)
Theorem C108_embedded_quad (c : nat -> nat -> R) (s xi p : R * R * R) (M : R) (contract : list bool -> bool) :
  inputs_ok 5 3 c xi p M -> scalings_ok 3 (comp s) -> let w := (c 4%nat 0%nat, c 4%nat 1%nat, c 4%nat 2%nat) in
  exists r f, quademb_resid_d contract c s xi p = Some (r, f) /\ good_residual 3 42 M (comp s) (fun a => Xquad3 c w xi a - comp p a) r f.
Proof.
  intros I Hs w. pose proof (M_range _ _ _ _ _ _ I) as [_ MR].
  destruct (eval3_ok 5 42 quademb_e c xi p M contract (fun a => Xquad3 c w xi a - comp p a) chk_quademb I) as (f & A & N); [apply quademb_val|apply quademb_val|apply quademb_val|].
  destruct (meas3 s f M _ _ N MR) as (r & B & Me); [intros a Ha; apply scale_of_ok, (Hs a Ha)|].
  unfold quademb_resid_d. rewrite A. cbn [bind]. rewrite B. cbn [bind]. exists r, f. split; [reflexivity|]. apply good; auto. intros a Ha. apply (Hs a Ha).
Qed.
Theorem C108_embedded_triangle (c : nat -> nat -> R) (s xi p : R * R * R) (M : R) (contract : list bool -> bool) :
  inputs_ok 3 3 c xi p M -> scalings_ok 3 (comp s) ->
  exists r f, triemb_resid_d contract c s xi p = Some (r, f) /\ good_residual 3 31 M (comp s) (fun a => Xtri c xi a - comp p a) r f.
Proof.
  intros I Hs. pose proof (M_range _ _ _ _ _ _ I) as [_ MR].
  destruct (eval3_ok 3 31 triemb_e c xi p M contract (fun a => Xtri c xi a - comp p a) chk_triemb I) as (f & A & N); [apply triemb_val|apply triemb_val|apply triemb_val|].
  destruct (meas3 s f M _ _ N MR) as (r & B & Me); [intros a Ha; apply scale_of_ok, (Hs a Ha)|].
  unfold triemb_resid_d. rewrite A. cbn [bind]. rewrite B. cbn [bind]. exists r, f. split; [reflexivity|]. apply good; auto. intros a Ha. apply (Hs a Ha).
Qed.
Print Assumptions C108_embedded_quad.
Print Assumptions C108_embedded_triangle.

(** The exact residual can be zero where the computed one is not: all vertices at (1,1) and xi = (2^-53, 0). *)
Definition tiny : R := / 9007199254740992.
Definition ev (env : nat -> R) (e : ex) (v : R) : Prop := forall contract place, deval contract place env e = Some v.
Lemma ev_mul env a b x y z m k : ev env a x -> ev env b y -> x * y = z -> z = IZR m * bpow radix2 k -> (Z.abs m <= 2 ^ 53)%Z -> (-1074 <= k <= 900)%Z -> ev env (EMul a b) z.
Proof. intros A B E Ez H1 H2 ct pl. cbn [deval]. rewrite A, B. cbn [bind]. rewrite E. destruct (ct pl); [reflexivity|]. apply (fl_is m k); auto. Qed.
Lemma ev_add env a b x y z : ev env a x -> ev env b y -> fl (x + y) = Some z -> ev env (EAdd a b) z.
Proof. intros A B E ct pl. cbn [deval]. rewrite A, B. exact E. Qed.
Lemma ev_sub env a b x y z : ev env a x -> ev env b y -> fl (x - y) = Some z -> ev env (ESub a b) z.
Proof. intros A B E ct pl. cbn [deval]. rewrite A, B. exact E. Qed.
Lemma fl_ex m k x z : x = z -> z = IZR m * bpow radix2 k -> (Z.abs m <= 2 ^ 53)%Z -> (-1074 <= k <= 900)%Z -> fl x = Some z.
Proof. intros -> H. apply fl_is. auto. Qed.
Ltac exact_fl m k := apply (fl_ex m k); [unfold tiny; cbn; lra|unfold tiny; cbn; lra|lia|lia].
Theorem C108_exact_refuted : exists c xi p, inputs_ok 4 2 c xi p 1 /\ (forall a, Xmap EQuad c xi a - comp p a = 0) /\
  forall contract, exists f, eval2 contract (args c xi p) quad_e = Some f /\ comp f 0 = - / 2 ^ 55.
Proof.
  exists (fun _ _ => 1), (tiny, 0, 0), (1, 1, 1). assert (U : unit_roundoff = / 2 ^ 53) by reflexivity.
  assert (P5 : 1 <= 2 ^ 500) by (apply pow_R1_Rle; lra).
  assert (D1 : sized 1 1) by (split; [dbl 1%Z 0%Z|rewrite Rabs_R1; lra]).
  assert (I : inputs_ok 4 2 (fun _ _ => 1) (tiny, 0, 0) (1, 1, 1) 1).
  { split; [split; [rewrite <- Rinv_1; apply Rinv_le_contravar; lra|auto]|]. split; [auto|]. intros a Ha.
    destruct a as [|[|]]; [| |lia]; cbn [comp]; (split; [auto|split]).
    - unfold tiny. dbl 1%Z (-53)%Z.
    - unfold tiny. rewrite Rabs_pos_eq; lra.
    - dbl 0%Z 0%Z.
    - rewrite Rabs_R0. lra. }
  split; [auto|]. split.
  { intros a. unfold Xmap, shapef, bilin, lin, refvert. cbn. destruct a as [|[|]]; cbn; field. }
  intros contract. 
  destruct (eval2_ok 4 36 quad_e _ _ _ 1 contract (fun a => Xmap EQuad (fun _ _ => 1) (tiny, 0, 0) a - comp (1, 1, 1) a) chk_quad I) as (f & A & _); [apply quad_val|apply quad_val|].
  exists f. split; [auto|]. unfold eval2 in A.
  destruct (deval contract [false; false] _ (fst quad_e)) as [f0|] eqn:E0; [|discriminate]. destruct (deval contract [true; false] _ (snd quad_e)) as [f1|]; [|discriminate]. cbn [bind] in A.
  injection A as <-. cbn [comp].
  assert (G : deval contract [false; false] (args (fun _ _ => 1) (tiny, 0, 0) (1, 1, 1)) (fst quad_e) = Some (- / 2 ^ 55)); [|congruence].
  clear. change (fst quad_e) with (let x0 := (EVar 0 - c1)%ex in let x1 := (EVar 1 - c1)%ex in let x2 := (EVar 0 + c1)%ex in let x3 := (c1_4 * x1 * x2)%ex in
    let x4 := (EVar 1 + c1)%ex in let x5 := (c1_4 * x0 * x4)%ex in
    (- EVar 3 + c1_4 * EVar 6 * x0 * x1 - EVar 9 * x3 + c1_4 * EVar 12 * x2 * x4 - EVar 15 * x5)%ex). cbv zeta.
  set (env := args (fun _ _ => 1) (tiny, 0, 0) (1, 1, 1)).
  assert (N : ev env (- EVar 3)%ex (-1)) by (intros ct pl; reflexivity).
  assert (One : forall n, (n = 6 \/ n = 9 \/ n = 12 \/ n = 15)%nat -> ev env (EVar n) 1) by (intros n [->|[->|[->| ->]]] ct pl; reflexivity).
  assert (X0 : ev env (EVar 0) tiny) by (intros ct pl; reflexivity). assert (X1 : ev env (EVar 1) 0) by (intros ct pl; reflexivity).
  assert (C1 : ev env c1 1) by (intros ct pl; cbn; f_equal; lra). assert (C4 : ev env c1_4 (/ 4)) by (intros ct pl; cbn; f_equal; lra).
  assert (E0 : ev env (EVar 0 - c1)%ex (tiny - 1)). { eapply ev_sub; [exact X0|exact C1|]. exact_fl (-9007199254740991)%Z (-53)%Z. }
  assert (E1 : ev env (EVar 1 - c1)%ex (-1)). { eapply ev_sub; [exact X1|exact C1|]. exact_fl (-1)%Z 0%Z. }
  assert (E2 : ev env (EVar 0 + c1)%ex 1).
  { eapply ev_add; [exact X0|exact C1|]. transitivity (Some (rnd (tiny + 1))); [apply (fl_bpow _ 1); [lia|rewrite Rabs_pos_eq; unfold tiny; cbn; lra]|]. f_equal.
    rewrite (rnd_val (tiny + 1) (-52) 4503599627370496); [cbn; lra|unfold tiny; cbn; lra|lia|].
    replace ((tiny + 1) * bpow radix2 (- -52)) with (IZR 4503599627370496 + / 2) by (unfold tiny; cbn; lra).
    unfold ZnearestE, Znearest. replace (Zfloor (IZR 4503599627370496 + / 2)) with 4503599627370496%Z by (symmetry; apply Zfloor_imp; rewrite plus_IZR; lra).
    rewrite Rcompare_Eq by lra. reflexivity. }
  assert (E4 : ev env (EVar 1 + c1)%ex 1). { eapply ev_add; [exact X1|exact C1|]. exact_fl 1%Z 0%Z. }
  assert (E3 : ev env (c1_4 * (EVar 1 - c1) * (EVar 0 + c1))%ex (- / 4)).
  { eapply (ev_mul _ _ _ (- / 4) 1 _ (-1) (-2)); [|exact E2|lra|cbn; lra|lia|lia]. eapply (ev_mul _ _ _ (/ 4) (-1) _ (-1) (-2)); [exact C4|exact E1|lra|cbn; lra|lia|lia]. }
  assert (E5 : ev env (c1_4 * (EVar 0 - c1) * (EVar 1 + c1))%ex ((tiny - 1) / 4)).
  { eapply (ev_mul _ _ _ ((tiny - 1) / 4) 1 _ (-9007199254740991) (-55)); [|exact E4|lra|unfold tiny; cbn; lra|lia|lia].
    eapply (ev_mul _ _ _ (/ 4) (tiny - 1) _ (-9007199254740991) (-55)); [exact C4|exact E0|lra|unfold tiny; cbn; lra|lia|lia]. }
  assert (T0 : ev env (c1_4 * EVar 6 * (EVar 0 - c1) * (EVar 1 - c1))%ex ((1 - tiny) / 4)).
  { eapply (ev_mul _ _ _ ((tiny - 1) / 4) (-1) _ 9007199254740991 (-55)); [|exact E1|lra|unfold tiny; cbn; lra|lia|lia].
    eapply (ev_mul _ _ _ (/ 4) (tiny - 1) _ (-9007199254740991) (-55)); [|exact E0|lra|unfold tiny; cbn; lra|lia|lia].
    eapply (ev_mul _ _ _ (/ 4) 1 _ 1 (-2)); [exact C4|apply One; auto|lra|cbn; lra|lia|lia]. }
  assert (T1 : ev env (EVar 9 * (c1_4 * (EVar 1 - c1) * (EVar 0 + c1)))%ex (- / 4)).
  { eapply (ev_mul _ _ _ 1 (- / 4) _ (-1) (-2)); [apply One; auto|exact E3|lra|cbn; lra|lia|lia]. }
  assert (T2 : ev env (c1_4 * EVar 12 * (EVar 0 + c1) * (EVar 1 + c1))%ex (/ 4)).
  { eapply (ev_mul _ _ _ (/ 4) 1 _ 1 (-2)); [|exact E4|lra|cbn; lra|lia|lia]. eapply (ev_mul _ _ _ (/ 4) 1 _ 1 (-2)); [|exact E2|lra|cbn; lra|lia|lia].
    eapply (ev_mul _ _ _ (/ 4) 1 _ 1 (-2)); [exact C4|apply One; auto|lra|cbn; lra|lia|lia]. }
  assert (T3 : ev env (EVar 15 * (c1_4 * (EVar 0 - c1) * (EVar 1 + c1)))%ex ((tiny - 1) / 4)).
  { eapply (ev_mul _ _ _ 1 ((tiny - 1) / 4) _ (-9007199254740991) (-55)); [apply One; auto|exact E5|lra|unfold tiny; cbn; lra|lia|lia]. }
  assert (S1 : ev env (- EVar 3 + c1_4 * EVar 6 * (EVar 0 - c1) * (EVar 1 - c1))%ex (- (3 / 4))).
  { eapply ev_add; [exact N|exact T0|]. transitivity (Some (rnd (-1 + (1 - tiny) / 4))); [apply (fl_bpow _ 1); [lia|rewrite Rabs_left; unfold tiny; cbn; lra]|]. f_equal.
    replace (-1 + (1 - tiny) / 4) with (- (3 / 4 + tiny / 4)) by (unfold tiny; lra). rewrite rnd_opp. f_equal.
    rewrite (rnd_val (3 / 4 + tiny / 4) (-53) 6755399441055744); [cbn; lra|unfold tiny; cbn; lra|lia|].
    apply Znearest_imp. apply Rabs_def1; unfold tiny; cbn; lra. }
  assert (S2 : ev env ((- EVar 3 + c1_4 * EVar 6 * (EVar 0 - c1) * (EVar 1 - c1)) - EVar 9 * (c1_4 * (EVar 1 - c1) * (EVar 0 + c1)))%ex (- (1 / 2))).
  { eapply ev_sub; [exact S1|exact T1|]. exact_fl (-1)%Z (-1)%Z. }
  refine (ev_sub env _ _ (- (1 / 4)) ((tiny - 1) / 4) _ _ T3 _ contract [false; false]).
  - apply (ev_add env _ _ (- (1 / 2)) (/ 4)); [exact S2|exact T2|exact_fl (-1)%Z (-2)%Z].
  - apply (fl_ex (-1) (-55)); [unfold tiny; lra|cbn; lra|lia|lia].
Qed.
Print Assumptions C108_exact_refuted.

(** A non-trivial case: a trapezium, a point in it and tolerance 2^-40. *)
Example C108_applied : let c := fun i a => nth a (nth i [[0; 0]; [4; 0]; [3; 2]; [1; 2]] []) 0 in
  inputs_ok 4 2 c (1 / 4, - (1 / 2), 0) (5 / 2, 1 / 2, 0) 4 /\ scalings_ok 2 (comp (1 / 8, 1 / 8, 0)) /\
  Xmap EQuad c (1 / 4, - (1 / 2), 0) 0 = 39 / 16.
Proof.
  cbv zeta. assert (P5 : 4 <= 2 ^ 500). { rewrite <- (bpow_nat 500). apply Rle_trans with (bpow radix2 2); [cbn; lra|apply bpow_le; lia]. }
  split; [|split].
  - split. { split; [apply Rle_trans with (/ 4); [apply Rinv_le_contravar; lra|lra]|auto]. } split.
    + intros i a Hi Ha. destruct i as [|[|[|[|]]]]; try lia; destruct a as [|[|]]; try lia; cbn [nth]; split.
      all: try (dbl 0%Z 0%Z); try (dbl 1%Z 0%Z); try (dbl 2%Z 0%Z); try (dbl 3%Z 0%Z); try (dbl 4%Z 0%Z); rewrite Rabs_pos_eq; lra.
    + intros a Ha. destruct a as [|[|]]; try lia; cbn [comp]; (split; split).
      * dbl 5%Z (-1)%Z.
      * rewrite Rabs_pos_eq; lra.
      * dbl 1%Z (-2)%Z.
      * rewrite Rabs_pos_eq; lra.
      * dbl 1%Z (-1)%Z.
      * rewrite Rabs_pos_eq; lra.
      * dbl (-1)%Z (-1)%Z.
      * rewrite Rabs_left; lra.
  - intros a Ha. assert (P4 : 1 <= 2 ^ 480) by (apply pow_R1_Rle; lra). destruct a as [|[|]]; try lia; cbn [comp]; lra.
  - unfold Xmap, shapef, bilin, lin, refvert. cbn. field.
Qed.
