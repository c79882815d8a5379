(** Lemmas about the Diffusion solver. *)
From Verif Require Import M_RealBase M_Grid M_Fluid M_Plane M_Diffusion S_Diffusion L_RealBase L_Coord L_Fluid L_Plane.
From Coq Require Import Reals Lra Lia ZArith String FunctionalExtensionality List.
Import ListNotations.
Open Scope R_scope.
Open Scope list_scope.

Definition D00 (p : dpar) : R := 2 / (3 * dp_n p) * ((dp_kpar p - dp_kperp p) * cos (dp_theta p) * cos (dp_theta p) + dp_kperp p).
Definition D01 (p : dpar) : R := 2 / (3 * dp_n p) * ((dp_kpar p - dp_kperp p) * cos (dp_theta p) * sin (dp_theta p)).
Definition D11 (p : dpar) : R := 2 / (3 * dp_n p) * ((dp_kpar p - dp_kperp p) * sin (dp_theta p) * sin (dp_theta p) + dp_kperp p).
Lemma tensor_ok p : dp_n p <> 0 -> diff_tensor p = FOk (D00 p, D01 p, D11 p).
Proof. intros H. unfold diff_tensor. rewrite rdiv_q by lra. reflexivity. Qed.
Lemma tensor_nan p : dp_n p = 0 -> diff_tensor p = FNan.
Proof. intros H. unfold diff_tensor. rewrite rdiv_zero; [reflexivity|rewrite H; ring]. Qed.

Lemma tensor_form p x y : dp_n p <> 0 ->
  D00 p * (x * x) + 2 * D01 p * (x * y) + D11 p * (y * y) =
  2 / (3 * dp_n p) * (dp_kpar p * ((cos (dp_theta p) * x + sin (dp_theta p) * y) * (cos (dp_theta p) * x + sin (dp_theta p) * y)) +
                      dp_kperp p * ((- sin (dp_theta p) * x + cos (dp_theta p) * y) * (- sin (dp_theta p) * x + cos (dp_theta p) * y))).
Proof.
  intros H. unfold D00, D01, D11. pose proof (sin2_cos2 (dp_theta p)) as SC. unfold Rsqr in SC.
  set (c := cos (dp_theta p)) in *. set (s := sin (dp_theta p)) in *. set (q := 2 / _).
  transitivity (q * ((dp_kpar p - dp_kperp p) * ((c * x + s * y) * (c * x + s * y)) + dp_kperp p * (x * x + y * y))); [ring|].
  replace (x * x + y * y) with ((s * s + c * c) * (x * x + y * y)) by (rewrite SC; ring). ring.
Qed.
Lemma rot_norm t x y : (cos t * x + sin t * y) * (cos t * x + sin t * y) + (- sin t * x + cos t * y) * (- sin t * x + cos t * y) = x * x + y * y.
Proof.
  pose proof (sin2_cos2 t) as SC. unfold Rsqr in SC. set (c := cos t) in *. set (s := sin t) in *.
  replace (x * x + y * y) with ((s * s + c * c) * (x * x + y * y)) by (rewrite SC; ring). ring.
Qed.
Lemma sq_nonneg (x : R) : 0 <= x * x.
Proof. pose proof (Rle_0_sqr x) as H. exact H. Qed.
Lemma tensor_bounds p x y : 0 < dp_n p ->
  2 / (3 * dp_n p) * (Rmin (dp_kpar p) (dp_kperp p) * (x * x + y * y)) <= D00 p * (x * x) + 2 * D01 p * (x * y) + D11 p * (y * y) <=
  2 / (3 * dp_n p) * (Rmax (dp_kpar p) (dp_kperp p) * (x * x + y * y)).
Proof.
  intros Hn. rewrite tensor_form by lra. rewrite <- (rot_norm (dp_theta p) x y).
  set (a := (cos _ * x + _) * _). set (b := (- sin _ * x + _) * _).
  assert (Ha : 0 <= a) by apply sq_nonneg. assert (Hb : 0 <= b) by apply sq_nonneg. clearbody a b.
  assert (Hq : 0 < 2 / (3 * dp_n p)) by (apply Rdiv_lt_0_compat; lra).
  pose proof (Rmin_l (dp_kpar p) (dp_kperp p)). pose proof (Rmin_r (dp_kpar p) (dp_kperp p)).
  pose proof (Rmax_l (dp_kpar p) (dp_kperp p)). pose proof (Rmax_r (dp_kpar p) (dp_kperp p)).
  split; (apply Rmult_le_compat_l; [lra|]).
  - rewrite Rmult_plus_distr_l. apply Rplus_le_compat; apply Rmult_le_compat_r; auto.
  - rewrite Rmult_plus_distr_l. apply Rplus_le_compat; apply Rmult_le_compat_r; auto.
Qed.
Lemma tensor_psd p : good_pars p -> psd (fun _ => D00 p) (fun _ => D01 p) (fun _ => D11 p).
Proof.
  intros (Hn & H1 & H2) _ x y. destruct (tensor_bounds p x y Hn) as [H _]. refine (Rle_trans _ _ _ _ H).
  apply Rmult_le_pos. { apply Rlt_le, Rdiv_lt_0_compat; lra. }
  apply Rmult_le_pos; [apply Rmin_glb; auto|]. pose proof (sq_nonneg x). pose proof (sq_nonneg y). lra.
Qed.

(** the maps after initialisation *)
Definition good_maps (p : dpar) (h : hmaps) : Prop := tensor_of h (fun _ => D00 p) (fun _ => D01 p) (fun _ => D11 p).
Lemma setup_ok p node : dp_n p <> 0 -> (dp_svv p <> None -> dp_eps p <> 0) ->
  exists h, setup_helm p node hm_empty = FOk h /\ good_maps p h /\ hm_lambda h = None /\
    (Nat.eqb (get_collection_type node) eMatrixFree = false -> hm_v00 h = Some (fun _ => D00 p) /\ hm_v01 h = Some (fun _ => D01 p) /\ hm_v11 h = Some (fun _ => D11 p)) /\
    (Nat.eqb (get_collection_type node) eMatrixFree = true -> var_count h = 0%nat) /\
    (hm_svv_cut h, hm_svv_diff h) = match dp_svv p with Some (c, d) => (Some c, Some (d / dp_eps p)) | None => (None, None) end.
Proof.
  intros Hn He. unfold setup_helm.
  assert (E : exists h0, match dp_svv p with
            | Some (cut, dc) => let! q := fnan (rdiv dc (dp_eps p)) in FOk (set_svv hm_empty cut q)
            | None => FOk hm_empty end = FOk h0 /\ hm_lambda h0 = None /\ hm_d00 h0 = None /\ hm_d01 h0 = None /\ hm_d11 h0 = None /\
            hm_v00 h0 = None /\ hm_v01 h0 = None /\ hm_v11 h0 = None /\
            (hm_svv_cut h0, hm_svv_diff h0) = match dp_svv p with Some (c, d) => (Some c, Some (d / dp_eps p)) | None => (None, None) end).
  { destruct (dp_svv p) as [[c d]|]; [|exists hm_empty; cbn; auto 20].
    rewrite rdiv_q by (apply He; discriminate). eexists. split; [reflexivity|]. cbn. auto 20. }
  destruct E as (h0 & E & A0 & A1 & A2 & A3 & A4 & A5 & A6 & A7). rewrite E. cbn [fbind]. rewrite (tensor_ok p Hn). cbn [fbind].
  eexists. split; [reflexivity|]. destruct (Nat.eqb (get_collection_type node) eMatrixFree).
  - split. { left. do 3 eexists. cbn. repeat split; eauto. }
    cbn. split; [exact A0|]. split; [discriminate|]. split; [intros _; unfold var_count; cbn; rewrite A4, A5, A6; reflexivity|exact A7].
  - split. { right. cbn. repeat split; auto. }
    cbn. split; [exact A0|]. split; [auto|]. split; [discriminate|exact A7].
Qed.
Lemma implicit_nth helm h L inn : forall k i f, nth_error inn k = Some f ->
  nth_error (implicit_loop helm h L i inn) k = Some (helm (i + k)%nat h (smul (- L) f)).
Proof.
  induction inn as [|a r IH]; intros [|k] i f H; try discriminate.
  - injection H as ->. cbn. rewrite Nat.add_0_r. reflexivity.
  - cbn in *. rewrite (IH k (S i) f H). f_equal. f_equal. lia.
Qed.
Lemma implicit_len helm h L inn : forall i, length (implicit_loop helm h L i inn) = length inn.
Proof. induction inn; intros; cbn; auto. Qed.
Lemma implicit_ok helm p h inn lambda : lambda <> 0 -> dp_eps p <> 0 ->
  do_implicit_solve helm p h inn lambda =
    FOk (set_lambda h (1 / lambda / dp_eps p), implicit_loop helm (set_lambda h (1 / lambda / dp_eps p)) (1 / lambda / dp_eps p) 0 inn).
Proof. intros H1 H2. unfold do_implicit_solve. rewrite rdiv_q by auto. cbn [fnan fbind]. rewrite rdiv_q by auto. reflexivity. Qed.
Lemma tensor_set_lambda h a b c l : tensor_of h a b c -> tensor_of (set_lambda h l) a b c.
Proof. intros H. exact H. Qed.

Lemma I_ext g f h : ga_ok g -> (forall i, f i = h i) -> ga_I g f = ga_I g h.
Proof. intros _ H. f_equal. extensionality i. apply H. Qed.
Lemma I_scale g f a : ga_ok g -> ga_I g (fun i => a * f i) = a * ga_I g f.
Proof.
  intros [HI _]. transitivity (ga_I g (fun i => a * f i + 0 * f i)); [f_equal; extensionality i; ring|]. rewrite HI. ring.
Qed.
Lemma inner_scale g f h a : ga_ok g -> inner g (fun i => a * f i) h = a * inner g f h.
Proof. intros H. unfold inner. rewrite <- I_scale by exact H. f_equal. extensionality i. ring. Qed.
Lemma inner_sub g f h : ga_ok g -> inner g (fun i => f i - h i) (fun i => f i - h i) = inner g f f - 2 * inner g f h + inner g h h.
Proof.
  intros H. destruct H as [HI Hp]. unfold inner.
  transitivity (ga_I g (fun i => 1 * (f i * f i) + 1 * ((-2) * (f i * h i) + 1 * (h i * h i)))); [f_equal; extensionality i; ring|].
  rewrite (HI (fun i => f i * f i) (fun i => (-2) * (f i * h i) + 1 * (h i * h i))), (HI (fun i => f i * h i) (fun i => h i * h i)). ring.
Qed.
Lemma aform_pos g a b c f : ga_ok g -> psd a b c -> 0 <= aform g a b c f f.
Proof.
  intros [_ Hp] H. apply Hp. intros i. specialize (H i (ga_dx g f i) (ga_dy g f i)).
  replace ((a i * ga_dx g f i + b i * ga_dy g f i) * ga_dx g f i + (b i * ga_dx g f i + c i * ga_dy g f i) * ga_dy g f i)
    with (a i * (ga_dx g f i * ga_dx g f i) + 2 * b i * (ga_dx g f i * ga_dy g f i) + c i * (ga_dy g f i * ga_dy g f i)) by ring. exact H.
Qed.

(** One solve in weak form. *)
Lemma solve_weak g (helm : nat -> hmaps -> fld -> fld) p h f lambda k : ga_ok g -> helm_solver g (helm k) -> good_pars p -> good_maps p h -> hm_svv_cut h = None ->
  0 < lambda -> 0 < dp_eps p ->
  let L := 1 / lambda / dp_eps p in let Y := helm k (set_lambda h L) (smul (- L) f) in
  ga_V g Y /\ forall v, ga_V g v ->
    inner g Y v - inner g f v = - (lambda * dp_eps p) * aform g (fun _ => D00 p) (fun _ => D01 p) (fun _ => D11 p) Y v.
Proof.
  intros Hg Hh Hp Hm Hs Hl He L Y.
  assert (HL : 0 < L) by (unfold L; apply Rdiv_lt_0_compat; [apply Rdiv_lt_0_compat; lra|lra]).
  destruct (Hh (set_lambda h L) (smul (- L) f) _ _ _ L eq_refl HL (tensor_set_lambda _ _ _ _ _ Hm) (tensor_psd p Hp) Hs) as [HV HW].
  fold Y in HV, HW. split; [exact HV|]. intros v Hv. specialize (HW v Hv).
  unfold smul in HW. rewrite (inner_scale g f v (- L) Hg) in HW.
  assert (E : L * (inner g Y v - inner g f v) = - aform g (fun _ => D00 p) (fun _ => D01 p) (fun _ => D11 p) Y v) by lra.
  assert (E2 : inner g Y v - inner g f v = lambda * dp_eps p * (L * (inner g Y v - inner g f v))) by (unfold L; field; split; lra).
  rewrite E2, E. ring.
Qed.
Lemma steps_inv g (helm : nat -> hmaps -> fld -> fld) p : ga_ok g -> (forall k, helm_solver g (helm k)) -> good_pars p -> 0 < dp_eps p ->
  forall ls, Forall (fun l => 0 < l) ls -> forall h inn, good_maps p h -> hm_svv_cut h = None ->
  exists h' out, steps helm p h ls inn = FOk (h', out) /\ length out = length inn /\
    forall k f, nth_error inn k = Some f -> exists Y, nth_error out k = Some Y /\ inner g Y Y <= inner g f f /\
      (ga_V g (fun _ => 1) -> (forall i, ga_dx g (fun _ => 1) i = 0) -> (forall i, ga_dy g (fun _ => 1) i = 0) -> ga_I g Y = ga_I g f).
Proof.
  intros Hg Hh Hp He ls. induction ls as [|l r IH]; intros Hl h inn Hm Hs.
  - exists h, inn. split; [reflexivity|]. split; [reflexivity|]. intros k f Hk. exists f. repeat split; auto; lra.
  - pose proof (Forall_inv Hl) as Hl0. cbn beta in Hl0. cbn [steps]. rewrite implicit_ok by lra. cbn [fbind fst snd].
    set (L := 1 / l / dp_eps p).
    destruct (IH (Forall_inv_tail Hl) (set_lambda h L) (implicit_loop helm (set_lambda h L) L 0 inn) (tensor_set_lambda _ _ _ _ _ Hm) Hs)
      as (h' & out & E & Hlen & HF).
    exists h', out. split; [exact E|]. split; [rewrite Hlen; apply implicit_len|]. intros k f Hk.
    destruct (HF k _ (implicit_nth helm (set_lambda h L) L inn k 0 f Hk)) as (Y & HY & HN & HC). exists Y. split; [exact HY|].
    pose proof (solve_weak g helm p h f l k Hg (Hh k) Hp Hm Hs Hl0 He) as SW. cbv zeta in SW. fold L in SW.
    cbn [Nat.add] in HN, HC. set (Z := helm k (set_lambda h L) (smul (- L) f)) in *. destruct SW as [HV HW].
    split.
    + refine (Rle_trans _ _ _ HN _). specialize (HW Z HV).
      assert (A : 0 <= aform g (fun _ => D00 p) (fun _ => D01 p) (fun _ => D11 p) Z Z) by (apply aform_pos; [exact Hg|apply tensor_psd; exact Hp]).
      assert (S2 : 0 <= inner g (fun i => Z i - f i) (fun i => Z i - f i)) by (destruct Hg as [_ Hpos]; apply Hpos; intros i; apply sq_nonneg).
      rewrite inner_sub in S2 by exact Hg.
      assert (0 <= l * dp_eps p * aform g (fun _ => D00 p) (fun _ => D01 p) (fun _ => D11 p) Z Z).
      { apply Rmult_le_pos; [apply Rmult_le_pos; lra|exact A]. }
      assert (C : inner g Z f = inner g f Z) by (unfold inner; f_equal; extensionality i; ring). rewrite C in S2. lra.
    + intros V1 Dx Dy. rewrite (HC V1 Dx Dy). specialize (HW (fun _ => 1) V1).
      assert (A0 : aform g (fun _ => D00 p) (fun _ => D01 p) (fun _ => D11 p) Z (fun _ => 1) = 0).
      { unfold aform. transitivity (ga_I g (fun i => 0 * Z i)); [f_equal; extensionality i; rewrite Dx, Dy; ring|]. rewrite I_scale by exact Hg. ring. }
      rewrite A0 in HW. unfold inner in HW.
      replace (fun i => Z i * 1) with Z in HW by (extensionality i; ring). replace (fun i => f i * 1) with f in HW by (extensionality i; ring). lra.
Qed.
