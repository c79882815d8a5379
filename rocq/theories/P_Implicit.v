(** C83: the implicit stage of the time integration. *)
From Verif Require Import M_Implicit S_Implicit S_Loop L_Loop L_RealBase L_Coord L_BaryField2 L_Implicit.
From Flocq Require Import Core.Raux.
From Coq Require Import Lra Lia List ZArith Bool.
Import ListNotations.
Open Scope R_scope.

(** Fields with different numbers of points are refused; otherwise the helper has the common number and the default perturbation. *)
Theorem C83_sizes : forall npts nf, npts <> [] ->
  ((exists n m, In n npts /\ In m npts /\ n <> m) -> ih_make npts nf = FThrow) /\
  (forall n, (forall m, In m npts -> m = n) -> exists h, ih_make npts nf = FOk h /\ ih_np h = n /\ ih_nf h = nf /\ ih_stages h = 0%Z /\ ih_newton h = 0%Z /\ ih_lin h = 0%Z /\ ih_norm h = -1 /\ ih_lambda h = 0 /\ ih_time h = 0 /\ ih_jfe (ih_init None h) = 5 / 10 ^ 8 /\ forall x, ih_jfe (ih_init (Some x) h) = x).
Proof.
  intros [|n0 npts] nf Hne; [congruence|]. unfold ih_make. split.
  - intros (n & m & Hn & Hm & Hd). destruct (forallb _ (n0 :: npts)) eqn:E; [|reflexivity]. exfalso. rewrite forallb_forall in E. pose proof (E n Hn) as A. pose proof (E m Hm) as B. apply Nat.eqb_eq in A, B. congruence.
  - intros n Hall. assert (E : forallb (fun m => Nat.eqb m n0) (n0 :: npts) = true). { apply forallb_forall. intros m Hm. apply Nat.eqb_eq. rewrite (Hall m Hm), (Hall n0); [reflexivity|now left]. }
    rewrite E. cbn [fassert fbind]. eexists. split; [reflexivity|]. cbn. repeat split. apply Hall. now left.
Qed.
Print Assumptions C83_sizes.
(** The residual handed to the Newton solver, at every rank, field and point: u - lambda f(P u, t) - source. *)
Theorem C83_residual : forall ode h nps src u, sized (ih_nf h) nps src -> sized (ih_nf h) nps u -> ode_sized ode (ih_nf h) nps ->
  exists out, residual ode h nps src u = FOk out /\ sized (ih_nf h) nps out /\
    forall r np i p, nth_error nps r = Some np -> (i < ih_nf h)%nat -> (p < np)%nat ->
      at2 out r (i * np + p) = at2 u r (i * np + p) - ih_lambda h * rhs_at ode (ih_time h) (ih_nf h) nps u r i p - at2 src r (i * np + p) /\
      (at2 out r (i * np + p) = 0 <-> at2 u r (i * np + p) = at2 src r (i * np + p) + ih_lambda h * rhs_at ode (ih_time h) (ih_nf h) nps u r i p).
Proof.
  intros ode h nps src u Hs Hu Ho. destruct (residual_ok ode h nps src u Hs Hu Ho) as (out & E & S & V). exists out. split; [exact E|]. split; [exact S|].
  intros r np i p R1 Hi Hp. rewrite (V r np i p R1 Hi Hp). split; [reflexivity|]. split; lra.
Qed.
Print Assumptions C83_residual.
(** A call of the implicit solve: with a solver whose result annihilates the residual for the input as source, the output fields satisfy the backward Euler stage
    u = u_in + lambda f(P u, t) at every point, whatever the memory held; what lies beyond is untouched and the counters advance. *)
Theorem C83_stage : forall ode solve h in_pts out_pts mem mem' time lambda,
  let nf := ih_nf h in let np := ih_np h in
  length mem = (nf * np)%nat -> length mem' = (nf * np)%nat -> (nf <= length in_pts)%nat -> (nf <= length out_pts)%nat ->
  (forall f, In f in_pts -> (np <= length f)%nat) -> (forall f, In f out_pts -> (np <= length f)%nat) -> ode_sized ode nf [np] ->
  (forall h' flat m its o lin, length flat = (nf * np)%nat -> length m = (nf * np)%nat -> ih_nf h' = nf -> ih_np h' = np -> ih_time h' = time -> ih_lambda h' = lambda -> ih_jfe h' = ih_jfe h -> ih_norm h' = sumsq [flat] -> solve h' flat m = (its, o, lin) ->
     length o = (nf * np)%nat /\ exists z, residual ode h' [np] [flat] [o] = FOk z /\ forall k, (k < nf * np)%nat -> at2 z 0 k = 0) ->
  exists h' out_pts' o, implicit_time_int solve h in_pts out_pts mem mem' time lambda = FOk (h', out_pts') /\
    length out_pts' = length out_pts /\
    (forall i p, (i < nf)%nat -> (p < np)%nat -> nth p (nth i out_pts' []) 0 = nth (i * np + p) o 0 /\
        nth p (nth i out_pts' []) 0 = nth p (nth i in_pts []) 0 + lambda * rhs_at ode time nf [np] [o] 0 i p) /\
    (forall i p, ~ ((i < nf)%nat /\ (p < np)%nat) -> nth p (nth i out_pts' []) 0 = nth p (nth i out_pts []) 0) /\
    ih_nf h' = nf /\ ih_np h' = np /\ ih_jfe h' = ih_jfe h /\ 0 <= ih_norm h' /\ ih_stages h' = (ih_stages h + 1)%Z /\
    exists its lin, ih_newton h' = (ih_newton h + its)%Z /\ ih_lin h' = (ih_lin h + lin)%Z.
Proof.
  intros ode solve h in_pts out_pts mem mem' time lambda nf np Hm Hm' Hi Hout Fi Fo Hode Hsol. unfold implicit_time_int. fold nf np.
  destruct (flatten_ok nf np in_pts mem Hm Hi Fi) as (flat & Ef & Lf & Vf). rewrite Ef. cbn [fbind].
  assert (Hsz : sized nf [np] [flat]) by (constructor; [exact Lf|constructor]).
  set (h1 := {| ih_nf := nf; ih_np := np; ih_norm := calc_ref_vals nf [np] [flat]; ih_jfe := ih_jfe h; ih_time := time; ih_lambda := lambda; ih_stages := ih_stages h; ih_newton := ih_newton h; ih_lin := ih_lin h |}).
  destruct (solve h1 flat mem') as [[its o] lin] eqn:Es. destruct (Hsol h1 flat mem' its o lin Lf Hm' eq_refl eq_refl eq_refl eq_refl eq_refl (calc_ref_spec nf [np] [flat] Hsz) Es) as (Lo & z & Ez & Vz).
  destruct (unflatten_ok nf np o out_pts Lo Hout Fo) as (o' & Eo & L' & _ & V1 & V2). rewrite Eo. cbn [fbind]. eexists _, o', o. split; [reflexivity|]. split; [exact L'|].
  assert (Hso : sized nf [np] [o]) by (constructor; [exact Lo|constructor]).
  destruct (C83_residual ode h1 [np] [flat] [o] Hsz Hso Hode) as (z' & Ez' & _ & Vz'). rewrite Ez in Ez'. injection Ez' as <-.
  split; [|split; [exact V2|]].
  - intros i p Hi' Hp. split; [apply V1; assumption|]. destruct (Vz' 0%nat np i p eq_refl Hi' Hp) as [_ [K _]]. rewrite V1 by assumption. cbn [ih_lambda ih_time ih_nf h1] in K. unfold at2 at 2 3 in K. cbn [nth] in K. rewrite <- (Vf i p Hi' Hp). apply K. apply Vz. nia.
  - cbn. repeat (split; [first [reflexivity | rewrite (calc_ref_spec nf [np] [flat] Hsz); apply sumsq_nonneg]|]). exists its, lin. split; reflexivity.
Qed.
Print Assumptions C83_stage.
(** The reference norm is the sum of squares over all ranks, fields and points. *)
Theorem C83_norm : forall nf nps arrs, sized nf nps arrs -> calc_ref_vals nf nps arrs = sumsq arrs /\ 0 <= calc_ref_vals nf nps arrs.
Proof. intros nf nps arrs H. rewrite (calc_ref_spec nf nps arrs H). split; [reflexivity|apply sumsq_nonneg]. Qed.
Print Assumptions C83_norm.
(** The perturbation has length jacobi_free_eps * sqrt (sqrt norm + 1), whatever the direction. *)
Theorem C83_step_size : forall h v, 0 <= ih_norm h -> 0 < sumsq v -> exists eps, mf_eps h v = Some eps /\ eps * eps * sumsq v = ih_jfe h * ih_jfe h * (sqrt (ih_norm h) + 1) /\ (0 < ih_jfe h -> 0 < eps).
Proof.
  intros h v Hn Hv. destruct (mf_eps_ok h v Hn Hv) as [E Hq]. eexists. split; [exact E|]. split.
  - set (q := _ / _) in *. replace (ih_jfe h * sqrt q * (ih_jfe h * sqrt q)) with (ih_jfe h * ih_jfe h * (sqrt q * sqrt q)) by ring. rewrite sqrt_sqrt by lra. unfold q. field. lra.
  - intros Hj. apply Rmult_lt_0_compat; [exact Hj|]. apply sqrt_lt_R0, Hq.
Qed.
Print Assumptions C83_step_size.
(** The matrix-free product. Where the right hand side is at most quadratic along the direction, the result is (I - lambda f') v, off by lambda * eps times the quadratic term:
    exact for a linear right hand side. *)
Theorem C83_jacobian_quadratic : forall ode h nps src ref res v, sized (ih_nf h) nps src -> sized (ih_nf h) nps ref -> sized (ih_nf h) nps v -> ode_sized ode (ih_nf h) nps ->
  residual ode h nps src ref = FOk res -> 0 <= ih_norm h -> 0 < sumsq v -> ih_jfe h <> 0 ->
  exists eps out, mf_eps h v = Some eps /\ matrix_multiply ode h nps src ref res v = FOk out /\
    forall r np i p D E, nth_error nps r = Some np -> (i < ih_nf h)%nat -> (p < np)%nat ->
      (forall s, rhs_at ode (ih_time h) (ih_nf h) nps (along_line ref v s) r i p = rhs_at ode (ih_time h) (ih_nf h) nps ref r i p + D * s + E * (s * s)) ->
      at2 out r (i * np + p) = at2 v r (i * np + p) - ih_lambda h * D - ih_lambda h * eps * E.
Proof.
  intros ode h nps src ref res v Hs Hr Hv Ho Hres Hn Hm Hj. destruct (mm_ok ode h nps src ref res v Hs Hr Hv Ho Hres Hn Hm Hj) as [He (out & Eo & _ & V)]. destruct (mf_eps_ok h v Hn Hm) as [Ee _].
  set (eps := ih_jfe h * _) in *. exists eps, out. split; [exact Ee|]. split; [exact Eo|]. intros r np i p D E R1 Hi Hp Hq. rewrite (V r np i p R1 Hi Hp), (Hq eps). field. exact He.
Qed.
Print Assumptions C83_jacobian_quadratic.
(** In general it converges to (I - lambda f') v as jacobi_free_eps tends to 0. *)
Theorem C83_jacobian_limit : forall ode h nps src ref res v, sized (ih_nf h) nps src -> sized (ih_nf h) nps ref -> sized (ih_nf h) nps v -> ode_sized ode (ih_nf h) nps ->
  residual ode h nps src ref = FOk res -> 0 <= ih_norm h -> 0 < sumsq v ->
  forall r np i p D, nth_error nps r = Some np -> (i < ih_nf h)%nat -> (p < np)%nat ->
  derivable_pt_lim (fun s => rhs_at ode (ih_time h) (ih_nf h) nps (along_line ref v s) r i p) 0 D ->
  forall tol, 0 < tol -> exists delta, 0 < delta /\ forall jfe, 0 < jfe < delta ->
    exists out, matrix_multiply ode (ih_init (Some jfe) h) nps src ref res v = FOk out /\ Rabs (at2 out r (i * np + p) - (at2 v r (i * np + p) - ih_lambda h * D)) < tol.
Proof.
  intros ode h nps src ref res v Hs Hr Hv Ho Hres Hn Hm r np i p D R1 Hi Hp HD tol Ht. set (K := sqrt ((sqrt (ih_norm h) + 1) / sumsq v)).
  assert (HK : 0 < K) by (apply sqrt_lt_R0, (mf_eps_ok h v Hn Hm)). set (lam := ih_lambda h). assert (Hl : 0 < Rabs lam + 1) by (pose proof (Rabs_pos lam); lra).
  destruct (HD (tol / (Rabs lam + 1)) (Rdiv_lt_0_compat _ _ Ht Hl)) as [alpha Ha]. exists (alpha / K). split; [apply Rdiv_lt_0_compat; [apply cond_pos|exact HK]|]. intros jfe [J1 J2].
  destruct (mm_ok ode (ih_init (Some jfe) h) nps src ref res v Hs Hr Hv Ho Hres Hn Hm ltac:(cbn; lra)) as [He (out & Eo & _ & V)]. exists out. split; [exact Eo|]. cbn [ih_jfe ih_init ih_norm ih_nf ih_lambda ih_time] in *. fold K in He, V.
  rewrite (V r np i p R1 Hi Hp). fold lam. set (eps := jfe * K) in *.
  assert (Hsmall : Rabs eps < alpha).
  { unfold eps. rewrite Rabs_pos_eq by (apply Rlt_le, Rmult_lt_0_compat; lra). apply (Rmult_lt_compat_r K) in J2; [|exact HK]. unfold Rdiv in J2. rewrite Rmult_assoc, Rinv_l, Rmult_1_r in J2 by lra. exact J2. }
  specialize (Ha eps He Hsmall). cbv beta in Ha. rewrite Rplus_0_l in Ha. set (g := fun s => rhs_at ode _ _ _ (along_line ref v s) r i p) in *. change (rhs_at ode (ih_time h) (ih_nf h) nps (along_line ref v eps) r i p) with (g eps) in *. change (rhs_at ode (ih_time h) (ih_nf h) nps (along_line ref v 0) r i p) with (g 0) in Ha.
  assert (E0 : rhs_at ode (ih_time h) (ih_nf h) nps ref r i p = g 0).
  { unfold g. f_equal. clear - Hr Hv. unfold along_line. pose proof (sized_lengths _ _ _ _ Hr Hv) as H. induction H as [|x y ref v L H IH]; [reflexivity|]. inversion Hr; inversion Hv; subst. cbn [combine map fst snd]. f_equal.
    - clear - L. revert y L. induction x as [|a x IH]; intros [|b y] L; cbn in L; try discriminate; [reflexivity|]. cbn [combine map fst snd]. f_equal; [lra|]. apply IH. lia.
    - clear - H. induction H as [|x y ref v L H IH]; [reflexivity|]. cbn [combine map fst snd]. rewrite <- IH. f_equal. clear - L. revert y L. induction x as [|a x IH]; intros [|b y] L; cbn in L; try discriminate; [reflexivity|]. cbn [combine map fst snd]. f_equal; [lra|]. apply IH. lia. }
  rewrite E0. replace (at2 v r (i * np + p) - lam * ((g eps - g 0) / eps) - (at2 v r (i * np + p) - lam * D)) with (- lam * ((g eps - g 0) / eps - D)) by ring.
  rewrite Rabs_mult, Rabs_Ropp. apply Rle_lt_trans with (Rabs lam * (tol / (Rabs lam + 1))).
  - apply Rmult_le_compat_l; [apply Rabs_pos|lra].
  - apply Rlt_le_trans with ((Rabs lam + 1) * (tol / (Rabs lam + 1))); [|right; field; lra]. apply Rmult_lt_compat_r; [apply Rdiv_lt_0_compat; lra|lra].
Qed.
Print Assumptions C83_jacobian_limit.
(** It is positively homogeneous in the direction, for any right hand side. *)
Theorem C83_homogeneous : forall ode h nps src ref res v c, sized (ih_nf h) nps src -> sized (ih_nf h) nps ref -> sized (ih_nf h) nps v -> ode_sized ode (ih_nf h) nps ->
  residual ode h nps src ref = FOk res -> 0 <= ih_norm h -> 0 < sumsq v -> ih_jfe h <> 0 -> 0 < c ->
  exists out out', matrix_multiply ode h nps src ref res v = FOk out /\ matrix_multiply ode h nps src ref res (scaled c v) = FOk out' /\
    forall r np i p, nth_error nps r = Some np -> (i < ih_nf h)%nat -> (p < np)%nat -> at2 out' r (i * np + p) = c * at2 out r (i * np + p).
Proof.
  intros ode h nps src ref res v c Hs Hr Hv Ho Hres Hn Hm Hj Hc.
  assert (Hv' : sized (ih_nf h) nps (scaled c v)) by (unfold scaled; clear - Hv; induction Hv as [|np u nps v Hu H IH]; cbn [map]; constructor; [rewrite map_length; exact Hu|exact IH]).
  assert (Hm' : sumsq (scaled c v) = c * c * sumsq v).
  { unfold scaled, sumsq. clear. induction v as [|u v IH]; cbn [map fold_right]; [ring|]. rewrite IH. replace (fold_right (fun x b => x * x + b) 0 (map (Rmult c) u)) with (c * c * fold_right (fun x b => x * x + b) 0 u); [ring|]. clear. induction u as [|x u IH]; cbn; [ring|]. rewrite <- IH. ring. }
  assert (Hc2 : 0 < c * c) by nra. assert (Hmp : 0 < sumsq (scaled c v)) by (rewrite Hm'; apply Rmult_lt_0_compat; assumption).
  destruct (mm_ok ode h nps src ref res v Hs Hr Hv Ho Hres Hn Hm Hj) as [He (out & Eo & So & V)]. destruct (mm_ok ode h nps src ref res (scaled c v) Hs Hr Hv' Ho Hres Hn Hmp Hj) as [He' (out' & Eo' & So' & V')].
  exists out, out'. split; [exact Eo|]. split; [exact Eo'|]. intros r np i p R1 Hi Hp. rewrite (V r np i p R1 Hi Hp), (V' r np i p R1 Hi Hp). clear V V'.
  assert (Esq : sqrt ((sqrt (ih_norm h) + 1) / sumsq (scaled c v)) = sqrt ((sqrt (ih_norm h) + 1) / sumsq v) / c).
  { rewrite Hm'. replace ((sqrt (ih_norm h) + 1) / (c * c * sumsq v)) with ((sqrt (ih_norm h) + 1) / sumsq v / (c * c)) by (field; split; lra). rewrite sqrt_div_alt by exact Hc2. rewrite sqrt_square by lra. reflexivity. }
  rewrite Esq in *. set (e := ih_jfe h * sqrt _) in *. replace (ih_jfe h * (sqrt ((sqrt (ih_norm h) + 1) / sumsq v) / c)) with (e / c) in * by (unfold e; field; lra). clearbody e.
  assert (Eline : along_line ref (scaled c v) (e / c) = along_line ref v e).
  { unfold along_line, scaled. clear - Hc. revert v. induction ref as [|x ref IH]; intros [|y v]; try reflexivity. cbn [map combine fst snd]. rewrite IH. f_equal. clear - Hc. revert y. induction x as [|a x IH]; intros [|b y]; try reflexivity. cbn [map combine fst snd]. rewrite IH. f_equal. field. lra. }
  rewrite Eline. assert (Hk : (i * np + p < ih_nf h * np)%nat) by nia. unfold scaled. change (map (map (Rmult c)) v) with (map (map (fun x => c * x)) v). rewrite (at2_map_smul _ _ _ _ _ _ _ Hv R1 Hk). field. split; [exact He|lra].
Qed.
Print Assumptions C83_homogeneous.
(** The product with the zero vector is not the zero vector but not finite: the perturbation divides by its norm. *)
Theorem C83_zero_direction_refuted : forall ode h nps src ref res v, 0 <= ih_norm h -> (forall u x, In u v -> In x u -> x = 0) -> matrix_multiply ode h nps src ref res v = FNan.
Proof.
  intros ode h nps src ref res v Hn Hz. unfold matrix_multiply, mf_eps. rewrite magn_spec, Rplus_0_l.
  assert (E : sumsq v = 0).
  { unfold sumsq. clear - Hz. induction v as [|u v IH]; cbn [fold_right]; [reflexivity|]. rewrite IH by (intros; eapply Hz; eauto; now right). assert (Hu : forall x, In x u -> x = 0) by (intros; eapply Hz; eauto; now left). clear - Hu. induction u as [|x u IH]; cbn; [ring|].
    rewrite (Hu x) by now left. assert (IH' := IH ltac:(intros; apply Hu; now right)). lra. }
  rewrite E. unfold dsqrt at 1. rewrite Rlt_bool_false by exact Hn. cbn [bind]. unfold rdiv. case Req_bool_spec; [reflexivity|congruence].
Qed.
Print Assumptions C83_zero_direction_refuted.
(** The preconditioner copies. *)
Theorem C83_precon : forall inn out, length inn = length out -> null_precon inn out = FOk inn.
Proof.
  intros inn out H. unfold null_precon, vcopy. rewrite Nat.leb_refl. cbn [Nat.add andb]. rewrite H, Nat.leb_refl. cbn [firstn app]. rewrite <- H, firstn_all, H, skipn_all, app_nil_r. reflexivity.
Qed.
Print Assumptions C83_precon.

(** Two ranks, one field; f(u) = 3 u: the product with v is (1 - 3/2) v. *)
Definition ex_ode : odeop := fun _ V => map (map (map (Rmult 3))) V.
Definition ex_h : ihelper := {| ih_nf := 1; ih_np := 2; ih_norm := 5; ih_jfe := 5 / 10 ^ 8; ih_time := 0; ih_lambda := 1 / 2; ih_stages := 0; ih_newton := 0; ih_lin := 0 |}.
Example C83_nonvacuous : ode_sized ex_ode 1 [2; 1]%nat /\ exists res out, residual ex_ode ex_h [2; 1]%nat [[0; 0]; [0]] [[1; 2]; [3]] = FOk res /\
  matrix_multiply ex_ode ex_h [2; 1]%nat [[0; 0]; [0]] [[1; 2]; [3]] res [[4; 0]; [8]] = FOk out /\ at2 res 0 1 = -1 /\ at2 out 0 0 = -2 /\ at2 out 1 0 = -4.
Proof.
  assert (Ho : ode_sized ex_ode 1 [2; 1]%nat).
  { intros t U HU. inversion HU as [|? u ? U1 Lu HU1]; subst. inversion HU1 as [|? w ? U2 Lw HU2]; subst. inversion HU2; subst. cbn. repeat constructor; cbn; intros f [<-|[]]; rewrite map_length; lia. }
  split; [exact Ho|]. assert (S1 : sized 1 [2; 1]%nat [[0; 0]; [0]]) by (repeat constructor). assert (S2 : sized 1 [2; 1]%nat [[1; 2]; [3]]) by (repeat constructor). assert (S3 : sized 1 [2; 1]%nat [[4; 0]; [8]]) by (repeat constructor).
  destruct (C83_residual ex_ode ex_h [2; 1]%nat [[0; 0]; [0]] [[1; 2]; [3]] S1 S2 Ho) as (res & Er & _ & Vr). exists res.
  destruct (C83_jacobian_quadratic ex_ode ex_h [2; 1]%nat [[0; 0]; [0]] [[1; 2]; [3]] res [[4; 0]; [8]] S1 S2 S3 Ho Er) as (eps & out & Ee & Eo & Vo); [cbn; lra|cbn; lra|cbn; lra|]. exists out. split; [exact Er|]. split; [exact Eo|]. split; [|split].
  - destruct (Vr 0%nat 2%nat 0%nat 1%nat eq_refl) as [E _]; [cbn; lia|lia|]. cbn [Nat.mul Nat.add] in E. rewrite E. unfold rhs_at, at2. cbn. lra.
  - pose proof (Vo 0%nat 2%nat 0%nat 0%nat 12 0 eq_refl ltac:(cbn; lia) ltac:(lia)) as E. cbn [Nat.mul Nat.add] in E. rewrite E; [unfold at2; cbn; lra|]. intros s. unfold rhs_at. cbn. lra.
  - pose proof (Vo 1%nat 1%nat 0%nat 0%nat 24 0 eq_refl ltac:(cbn; lia) ltac:(lia)) as E. cbn [Nat.mul Nat.add] in E. rewrite E; [unfold at2; cbn; lra|]. intros s. unfold rhs_at. cbn. lra.
Qed.
(** A solver meeting the hypothesis of [C83_stage]: f(u) = 3 u and lambda = 1/2, so u = u_in + 3/2 u is u = -2 u_in. *)
Definition ex_solve : ihelper -> list R -> list R -> Z * list R * Z := fun _ flat _ => (3%Z, map (Rmult (-2)) flat, 7%Z).
Example C83_stage_nonvacuous : exists h' out, implicit_time_int ex_solve ex_h [[1; 2; 9]] [[0; 0; 5]] [8; 8] [6; 6] 0 (1 / 2) = FOk (h', out) /\
  nth 1 (nth 0 out []) 0 = -4 /\ nth 2 (nth 0 out []) 0 = 5 /\ ih_newton h' = 3%Z /\
  nth 1 (nth 0 out []) 0 = 2 + 1 / 2 * rhs_at ex_ode 0 1 [2%nat] [[-2; -4]] 0 0 1.
Proof.
  assert (Ho : ode_sized ex_ode 1 [2]%nat).
  { intros t U HU. inversion HU as [|? u ? U1 Lu HU1]; subst. inversion HU1; subst. cbn. repeat constructor; cbn; intros f [<-|[]]; rewrite map_length; lia. }
  destruct (C83_stage ex_ode ex_solve ex_h [[1; 2; 9]] [[0; 0; 5]] [8; 8] [6; 6] 0 (1 / 2)) as (h' & out & o & E & L & V1 & V2 & _).
  - reflexivity. - reflexivity. - cbn; lia. - cbn; lia. - intros f [<-|[]]; cbn; lia. - intros f [<-|[]]; cbn; lia. - exact Ho.
  - intros h' flat m its o lin Lf Lm E1 E2 E3 E4 E5 _ Es. unfold ex_solve in Es. injection Es as <- <- <-. cbn in Lf, E1, E2. split; [rewrite map_length; exact Lf|].
    destruct flat as [|a [|b [|c flat]]]; cbn in Lf; try discriminate. cbn [ih_nf ih_np ex_h]. destruct (C83_residual ex_ode h' [2%nat] [[a; b]] [map (Rmult (-2)) [a; b]]) as (z & Ez & Sz & Vz); try (rewrite E1; first [exact Ho|repeat constructor]).
    exists z. split; [exact Ez|]. intros k Hk. destruct (Vz 0%nat 2%nat 0%nat k eq_refl) as [W _]; [lia|cbn in Hk; lia|]. cbn [Nat.mul Nat.add] in W. rewrite W, E3, E4, E1. unfold at2, rhs_at. destruct k as [|[|k]]; [cbn; lra|cbn; lra|cbn in Hk; lia].
  - exists h', out. split; [exact E|]. unfold implicit_time_int in E. cbn in E. injection E as <- <-. cbn. repeat split; lra.
Qed.

(** A call with an input field shorter than the number of points, or missing, or an output field too short, is undefined behaviour. *)
Lemma fold_bad {A B} (l : list A) (g : B -> A -> fres B) (a : A) : In a l -> (forall x, g x a = FUB) ->
  (forall x c, (exists y, g x c = FOk y) \/ g x c = FUB) -> forall x, fold_left (fun acc c => let! y := acc in g y c) l (FOk x) = FUB.
Proof.
  intros Hin Ha Hok. assert (Hf : forall l, fold_left (fun acc c => let! y := acc in g y c) l FUB = FUB) by (induction l0 as [|c l0 IH]; [reflexivity|exact IH]).
  induction l as [|c l IH]; [destruct Hin|]. intros x. cbn [fold_left fbind]. destruct (Hok x c) as [[y Ey]|Eu]; [|rewrite Eu; apply Hf].
  destruct Hin as [<-|Hin]; [rewrite Ha in Ey; discriminate|]. rewrite Ey. apply IH. exact Hin.
Qed.
Lemma vcopy_or n src off dst : (exists y, vcopy n src off dst = FOk y) \/ vcopy n src off dst = FUB.
Proof. unfold vcopy. destruct (_ && _)%bool; [left; eexists; reflexivity|right; reflexivity]. Qed.
Theorem C83_short_arrays : forall solve h in_pts out_pts mem mem' time lambda i, (i < ih_nf h)%nat -> 
  (nth_error in_pts i = None \/ exists f, nth_error in_pts i = Some f /\ (length f < ih_np h)%nat) ->
  implicit_time_int solve h in_pts out_pts mem mem' time lambda = FUB.
Proof.
  intros solve h in_pts out_pts mem mem' time lambda i Hi Hb. unfold implicit_time_int. assert (E : flatten (ih_nf h) (ih_np h) in_pts mem = FUB); [|rewrite E; reflexivity].
  unfold flatten. apply (fold_bad _ (fun a ifld => match nth_error in_pts ifld with None => FUB | Some f => vcopy (ih_np h) f (ifld * ih_np h) a end) i).
  - apply in_seq. lia.
  - intros x. destruct Hb as [->|(f & -> & Hl)]; [reflexivity|]. unfold vcopy. rewrite (proj2 (Nat.leb_gt _ _) Hl). reflexivity.
  - intros x c. destruct (nth_error in_pts c); [apply vcopy_or|right; reflexivity].
Qed.
Print Assumptions C83_short_arrays.
Theorem C83_short_output : forall nf np o out_pts i f, (i < nf)%nat -> nth_error out_pts i = Some f -> (length f < np)%nat -> unflatten nf np o out_pts = FUB.
Proof.
  intros nf np o out_pts i f Hi Hf Hl. unfold unflatten. replace nf with (i + S (nf - i - 1))%nat by lia. rewrite seq_app, fold_left_app. cbn [seq fold_left]. rewrite Nat.add_0_l.
  set (step := fun acc ifld => _).
  assert (Hub : forall l, fold_left step l FUB = FUB) by (induction l as [|c l IH]; [reflexivity|exact IH]).
  assert (G : forall l a, (forall k, In k l -> (k < i)%nat) -> nth_error a i = Some f -> (exists a', fold_left step l (FOk a) = FOk a' /\ nth_error a' i = Some f) \/ fold_left step l (FOk a) = FUB).
  { induction l as [|k l IH]; intros a Hk Ha; [left; exists a; auto|]. cbn [fold_left]. unfold step at 2 4. cbn [fbind]. destruct (nth_error a k) as [g|] eqn:Eg; [|right; apply Hub].
    destruct (vcopy_or np (skipn (k * np) o) 0 g) as [[y ->]| ->]; [|right; apply Hub]. cbn [fbind]. specialize (Hk k (or_introl eq_refl)) as Hki.
    apply IH; [intros; apply Hk; now right|]. assert (Hlk : (k < length a)%nat) by (apply nth_error_Some; congruence).
    rewrite nth_error_app2; rewrite firstn_length_le by lia; [|lia]. replace (i - k)%nat with (S (i - k - 1)) by lia. cbn [nth_error].
    rewrite <- Ha. rewrite <- (firstn_skipn (S k) a) at 2. rewrite nth_error_app2; rewrite firstn_length_le by lia; [|lia]. f_equal. lia. }
  destruct (G (seq 0 i) out_pts ltac:(intros k Hk; apply in_seq in Hk; lia) Hf) as [(a' & -> & Ha)| ->]; [|cbn [fold_left]; apply Hub].
  unfold step at 1. cbn [fbind]. rewrite Ha. unfold vcopy. rewrite (proj2 (Nat.leb_gt (0 + np) (length f))) by lia. rewrite andb_false_r. cbn [fbind]. apply Hub.
Qed.
Print Assumptions C83_short_output.
