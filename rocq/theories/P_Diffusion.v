(** C79: the anisotropic diffusion solver, alone and coupled. *)
From Verif Require Import M_RealBase M_Grid M_Fluid M_Plane M_Diffusion S_Diffusion L_RealBase L_Coord L_Fluid L_Plane L_Diffusion.
From Coq Require Import Reals Lra Lia ZArith String FunctionalExtensionality List.
Import ListNotations.
Open Scope R_scope.
Open Scope string_scope.
Open Scope list_scope.

(** The tensor built from the session's parameters: (2/(3n)) times k_par along the field line and k_perp across it. The field
    line is at MINUS the angle theta (in degrees) from the x axis. *)
Theorem C79_tensor svv ps : let p := diff_params svv ps in
  let t := sparam ps "theta" 0 * PI / 180 in
  sparam ps "n" (10 ^ 18) <> 0 -> exists a b c, diff_tensor p = FOk (a, b, c) /\
    has_eigen a b c (cos t) (- sin t) (2 / (3 * sparam ps "n" (10 ^ 18)) * sparam ps "k_par" 100) /\
    has_eigen a b c (sin t) (cos t) (2 / (3 * sparam ps "n" (10 ^ 18)) * sparam ps "k_perp" 1).
Proof.
  intros p t Hn. exists (D00 p), (D01 p), (D11 p). split; [apply tensor_ok; exact Hn|].
  assert (T : dp_theta p = - t) by (unfold p, t, diff_params; cbn [dp_theta]; field).
  unfold has_eigen, D00, D01, D11. rewrite T, cos_neg, sin_neg. unfold p, diff_params. cbn [dp_n dp_kpar dp_kperp].
  set (q := 2 / _). set (kl := sparam ps "k_par" 100). set (kp := sparam ps "k_perp" 1).
  pose proof (sin2_cos2 t) as SC. unfold Rsqr in SC. set (s := sin t) in *. set (x := cos t) in *.
  repeat split.
  - transitivity (q * ((kl - kp) * x * (s * s + x * x) + kp * x)); [ring|rewrite SC; ring].
  - transitivity (- (q * ((kl - kp) * s * (s * s + x * x) + kp * s))); [ring|rewrite SC; ring].
  - ring.
  - ring.
Qed.
(** epsilon scales the diffusion and is 1 unless given; the spectral viscosity only exists when asked for. *)
Theorem C79_parameters svv ps : let p := diff_params svv ps in
  (forall v, ps "epsilon" = Some v -> dp_eps p = v) /\ (ps "epsilon" = None -> dp_eps p = 1) /\
  (dp_svv p <> None <-> svv = true) /\
  (forall c d, dp_svv p = Some (c, d) -> (forall v, ps "SVVCutoffRatio" = Some v -> c = v) /\ (ps "SVVCutoffRatio" = None -> c = 3 / 4) /\
     (forall v, ps "SVVDiffCoeff" = Some v -> d = v) /\ (ps "SVVDiffCoeff" = None -> d = 1 / 10)).
Proof.
  cbv zeta. unfold diff_params, sparam. cbn [dp_eps dp_svv]. split; [intros v ->; reflexivity|]. split; [intros ->; reflexivity|].
  split; [destruct svv; split; congruence|]. intros c d E. destruct svv; [|discriminate]. injection E as <- <-.
  repeat split; intros; try (rewrite H; reflexivity). rewrite H. lra.
Qed.
(** The README calls theta the angle between the magnetic field and the x axis: for a positive angle the parallel direction is
    on the other side of the axis. *)
Theorem C79_angle_refuted : exists ps a b c, diff_tensor (diff_params false ps) = FOk (a, b, c) /\ sparam ps "theta" 0 = 45 /\
  ~ has_eigen a b c (cos (PI / 4)) (sin (PI / 4)) (2 / (3 * sparam ps "n" (10 ^ 18)) * sparam ps "k_par" 100).
Proof.
  set (ps := fun n => if String.eqb n "theta" then Some 45 else if String.eqb n "n" then Some (2 / 3) else None).
  exists ps. destruct (C79_tensor false ps) as (a & b & c & H & [E1 E2] & [E3 E4]); [unfold sparam, ps; cbn; lra|].
  exists a, b, c. split; [exact H|]. split; [reflexivity|]. intros [F1 F2].
  replace (sparam ps "theta" 0 * PI / 180) with (PI / 4) in * by (unfold sparam, ps; cbn; field).
  rewrite cos_PI4, sin_PI4 in *. unfold sparam, ps in F1, F2, E3, E4. cbn -[Rdiv sqrt] in F1, F2, E3, E4.
  assert (P : 0 < / sqrt 2) by (apply Rinv_0_lt_compat, sqrt_lt_R0; lra). unfold Rdiv in *. set (z := / sqrt 2) in *. nra.
Qed.
(** Heat flows down the temperature gradient: the flux form is bounded by the two conductivities. *)
Theorem C79_dissipative p a b c x y : 0 < dp_n p -> diff_tensor p = FOk (a, b, c) ->
  2 / (3 * dp_n p) * (Rmin (dp_kpar p) (dp_kperp p) * (x * x + y * y)) <= (a * x + b * y) * x + (b * x + c * y) * y <=
  2 / (3 * dp_n p) * (Rmax (dp_kpar p) (dp_kperp p) * (x * x + y * y)).
Proof.
  intros Hn. rewrite tensor_ok by lra. intros [= <- <- <-].
  replace ((D00 p * x + D01 p * y) * x + (D01 p * x + D11 p * y) * y) with (D00 p * (x * x) + 2 * D01 p * (x * y) + D11 p * (y * y)) by ring.
  apply tensor_bounds; exact Hn.
Qed.

(** The Helmholtz solve sees the same tensor whatever the collection type, and only "MatrixFree" selects constants. *)
Theorem C79_setup p node : dp_n p <> 0 -> (dp_svv p <> None -> dp_eps p <> 0) -> exists h a b c,
  setup_helm p node hm_empty = FOk h /\ diff_tensor p = FOk (a, b, c) /\ tensor_of h (fun _ => a) (fun _ => b) (fun _ => c) /\
  (hm_v00 h = None <-> node = Some (Some "MatrixFree")) /\
  (forall cut dc, dp_svv p = Some (cut, dc) -> hm_svv_cut h = Some cut /\ hm_svv_diff h = Some (dc / dp_eps p)) /\
  (dp_svv p = None -> hm_svv_cut h = None /\ hm_svv_diff h = None).
Proof.
  intros Hn He. destruct (setup_ok p node Hn He) as (h & H & Hm & _ & Hd & Hf & Hs). exists h, (D00 p), (D01 p), (D11 p).
  split; [exact H|]. split; [apply tensor_ok; exact Hn|]. split; [exact Hm|]. split.
  - assert (G : Nat.eqb (get_collection_type node) eMatrixFree = true <-> node = Some (Some "MatrixFree")).
    { split; [|intros ->; reflexivity]. destruct node as [[s|]|]; [|discriminate|discriminate]. unfold get_collection_type, impl_types.
      cbn [find_type]. repeat match goal with |- context [String.eqb s ?t] => destruct (String.eqb_spec s t) as [->|?] end; cbn; try discriminate. reflexivity. }
    rewrite <- G. destruct (Nat.eqb (get_collection_type node) eMatrixFree) eqn:E.
    + split; [reflexivity|]. intros _. specialize (Hf eq_refl). unfold var_count in Hf. destruct (hm_v00 h); [discriminate|reflexivity].
    + destruct (Hd eq_refl) as (-> & _). split; discriminate.
  - split; [intros cut dc E; rewrite E in Hs|intros E; rewrite E in Hs]; injection Hs as -> ->; auto.
Qed.

(** One implicit solve is a step of backward Euler for (3/2) n dT/dt = eps div(kappa grad T), for every field and step length. *)
Theorem C79_step g (helm : nat -> hmaps -> fld -> fld) p node h lambda inn a b c : ga_ok g -> (forall k, helm_solver g (helm k)) ->
  good_pars p -> dp_svv p = None -> 0 < lambda -> 0 < dp_eps p ->
  setup_helm p node hm_empty = FOk h -> diff_tensor p = FOk (a, b, c) ->
  exists h' out, do_implicit_solve helm p h inn lambda = FOk (h', out) /\ length out = length inn /\
  forall k f, nth_error inn k = Some f -> exists Y, nth_error out k = Some Y /\ ga_V g Y /\ forall v, ga_V g v ->
    inner g Y v - inner g f v = - (lambda * dp_eps p) * aform g (fun _ => a) (fun _ => b) (fun _ => c) Y v.
Proof.
  intros Hg Hh Hp Hsv Hl He Hset Ht. assert (Hn : dp_n p <> 0) by (destruct Hp; lra).
  destruct (setup_ok p node Hn ltac:(congruence)) as (h1 & H1 & Hm & _ & _ & _ & Hs). rewrite Hset in H1. injection H1 as <-.
  rewrite Hsv in Hs. injection Hs as Hs _. rewrite (tensor_ok p Hn) in Ht. injection Ht as <- <- <-.
  rewrite implicit_ok by lra. do 2 eexists. split; [reflexivity|]. split; [apply implicit_len|]. intros k f Hk.
  eexists. split; [apply (implicit_nth _ _ _ _ _ _ _ Hk)|]. exact (solve_weak g helm p h f lambda k Hg (Hh k) Hp Hm Hs Hl He).
Qed.
(** Any number of steps of any lengths: no field's norm grows and, with insulated walls, no heat is lost. *)
Theorem C79_stable g (helm : nat -> hmaps -> fld -> fld) p node h ls inn : ga_ok g -> (forall k, helm_solver g (helm k)) ->
  good_pars p -> dp_svv p = None -> 0 < dp_eps p -> Forall (fun l => 0 < l) ls -> setup_helm p node hm_empty = FOk h ->
  exists h' out, steps helm p h ls inn = FOk (h', out) /\ length out = length inn /\
    forall k f, nth_error inn k = Some f -> exists Y, nth_error out k = Some Y /\ inner g Y Y <= inner g f f /\
      (ga_V g (fun _ => 1) -> (forall i, ga_dx g (fun _ => 1) i = 0) -> (forall i, ga_dy g (fun _ => 1) i = 0) -> ga_I g Y = ga_I g f).
Proof.
  intros Hg Hh Hp Hsv He Hl Hset. assert (Hn : dp_n p <> 0) by (destruct Hp; lra).
  destruct (setup_ok p node Hn ltac:(congruence)) as (h1 & H1 & Hm & _ & _ & _ & Hs). rewrite Hset in H1. injection H1 as <-.
  rewrite Hsv in Hs. injection Hs as Hs _. exact (steps_inv g helm p Hg Hh Hp He ls Hl h inn Hm Hs).
Qed.
(** A zero step, epsilon or density is not rejected. *)
Theorem C79_zero_parameters (helm : nat -> hmaps -> fld -> fld) p node h inn lambda :
  (lambda = 0 \/ dp_eps p = 0 -> do_implicit_solve helm p h inn lambda = FNan) /\ (dp_n p = 0 -> setup_helm p node h = FNan).
Proof.
  split.
  - intros H. unfold do_implicit_solve. destruct (Req_dec lambda 0) as [E|E]; [rewrite rdiv_zero by exact E; reflexivity|].
    rewrite rdiv_q by exact E. cbn [fnan fbind]. rewrite rdiv_zero by tauto. reflexivity.
  - intros H. unfold setup_helm. rewrite (tensor_nan p H). destruct (dp_svv p) as [[c d]|]; [|reflexivity].
    destruct (Req_dec (dp_eps p) 0) as [E|E]; [rewrite rdiv_zero by exact E; reflexivity|rewrite rdiv_q by exact E; reflexivity].
Qed.
(** The projection transforms every field of the system once. *)
Theorem C79_projection proj inn k f : nth_error inn k = Some f ->
  length (diff_projection proj inn) = length inn /\ nth_error (diff_projection proj inn) k = Some (proj k f).
Proof.
  unfold diff_projection. intros H. split.
  - generalize 0%nat. clear. induction inn; intros; cbn; auto.
  - change (proj k f) with (proj (0 + k)%nat f). revert k H. generalize 0%nat.
    induction inn as [|x r IH]; intros m [|k] H; try discriminate.
    + injection H as ->. cbn. rewrite Nat.add_0_r. reflexivity.
    + cbn in *. rewrite (IH (S m) k H). f_equal. f_equal. lia.
Qed.

(** Coupled runs: without matrix-free collections in the sender, the tensor is sent before the first step and no other, and a
    receiver of any collection type that gets it unchanged solves with the same tensor; with the same (not matrix-free) type
    and no spectral viscosity its maps, hence all its solves, are those of an uncoupled run. *)
Theorem C79_coupled p node rnode rp h : dp_n p <> 0 -> (dp_svv p <> None -> dp_eps p <> 0) -> node <> Some (Some "MatrixFree") ->
  setup_helm p node hm_empty = FOk h ->
  exists a b c, diff_tensor p = FOk (a, b, c) /\ sender_pre h 0 = FOk (Some [(fun _ => a); (fun _ => b); (fun _ => c)]) /\
  (forall k, (0 < k)%nat -> sender_pre h k = FOk None) /\
  exists h0 h1, receiver_init rp hm_empty = FOk h0 /\ receiver_pre rnode [(fun _ => a); (fun _ => b); (fun _ => c)] h0 0 = FOk h1 /\
    tensor_of h1 (fun _ => a) (fun _ => b) (fun _ => c) /\ (forall k r, (0 < k)%nat -> receiver_pre rnode r h1 k = FOk h1) /\
    (rnode = node -> dp_svv p = None -> h1 = h).
Proof.
  intros Hn He Hnode Hset. destruct (setup_ok p node Hn He) as (h' & H' & Hm & Hlm & Hd & _ & Hs). rewrite Hset in H'. injection H' as <-.
  exists (D00 p), (D01 p), (D11 p). split; [apply tensor_ok; exact Hn|].
  assert (G : Nat.eqb (get_collection_type node) eMatrixFree = false).
  { destruct (Nat.eqb (get_collection_type node) eMatrixFree) eqn:E; [|reflexivity]. exfalso. apply Hnode.
    destruct node as [[s|]|]; [|discriminate|discriminate]. revert E. unfold get_collection_type, impl_types. cbn [find_type].
    repeat match goal with |- context [String.eqb s ?t] => destruct (String.eqb_spec s t) as [->|?] end; cbn; try discriminate. reflexivity. }
  destruct (Hd G) as (V0 & V1 & V2). split.
  { unfold sender_pre, var_count. rewrite V0, V1, V2. reflexivity. }
  split. { intros [|k] Hk; [lia|reflexivity]. }
  exists hm_empty. eexists. split; [reflexivity|]. split; [reflexivity|]. split.
  { destruct (Nat.eqb (get_collection_type rnode) eMatrixFree).
    - left. do 3 eexists. cbn. repeat split; reflexivity.
    - right. cbn. repeat split; reflexivity. }
  split. { intros [|k] r Hk; [lia|reflexivity]. }
  intros -> Hsv. rewrite G. unfold setup_helm in Hset. rewrite Hsv, (tensor_ok p Hn), G in Hset. cbn [fbind] in Hset. injection Hset as <-. reflexivity.
Qed.
(** A sender whose session asks for matrix-free collections, as the uncoupled example does, writes out of bounds. *)
Theorem C79_coupled_matrixfree_refuted : exists p h, good_pars p /\
  setup_helm p (Some (Some "MatrixFree")) hm_empty = FOk h /\ sender_pre h 0 = FUB.
Proof.
  exists (diff_params false (fun n => if String.eqb n "n" then Some 1 else None)). set (p := diff_params _ _).
  assert (Hp : good_pars p) by (unfold good_pars, p, diff_params, sparam; cbn; lra).
  destruct (setup_ok p (Some (Some "MatrixFree")) ltac:(destruct Hp; lra) ltac:(cbn; congruence)) as (h & H & _ & _ & _ & Hf & _).
  exists h. split; [exact Hp|]. split; [exact H|]. unfold sender_pre. rewrite (Hf eq_refl). reflexivity.
Qed.
(** A receiver never sets the spectral viscosity that its session asks for (the uncoupled solver does). *)
Theorem C79_receiver_viscosity_refuted : exists p h a b c h1, dp_svv p <> None /\ good_pars p /\
  setup_helm p None hm_empty = FOk h /\ hm_svv_cut h <> None /\ diff_tensor p = FOk (a, b, c) /\
  (let! h0 := receiver_init p hm_empty in receiver_pre None [(fun _ => a); (fun _ => b); (fun _ => c)] h0 0) = FOk h1 /\ hm_svv_cut h1 = None.
Proof.
  exists (diff_params true (fun n => if String.eqb n "n" then Some 1 else None)). set (p := diff_params _ _).
  assert (Hp : good_pars p) by (unfold good_pars, p, diff_params, sparam; cbn; lra).
  destruct (setup_ok p None ltac:(destruct Hp; lra) ltac:(cbn; intros _; lra)) as (h & H & _ & _ & _ & _ & Hs).
  exists h, (D00 p), (D01 p), (D11 p). eexists. split; [discriminate|]. split; [exact Hp|]. split; [exact H|]. split.
  { cbn in Hs. injection Hs as -> _. discriminate. }
  split; [apply tensor_ok; destruct Hp; lra|]. split; reflexivity.
Qed.

(** Two points exchanging heat: a discretisation and a solver that meet the hypotheses, and a step. *)
Definition g2 : galerkin := {| ga_I := fun f => f 0%nat + f 1%nat; ga_dx := fun f _ => f 1%nat - f 0%nat; ga_dy := fun _ _ => 0; ga_V := fun _ => True |}.
Definition d2 (h : hmaps) : R := match hm_d00 h, hm_v00 h with Some a, _ => 2 * a | _, Some f => f 0%nat + f 1%nat | _, _ => 0 end.
Definition helm2 (h : hmaps) (f : fld) (i : nat) : R :=
  let L := match hm_lambda h with Some l => l | None => 1 end in
  let sm := - (f 0%nat + f 1%nat) / L in let df := - (f 1%nat - f 0%nat) / (L + 2 * d2 h) in
  match i with 0%nat => (sm - df) / 2 | _ => (sm + df) / 2 end.
Lemma g2_ok : ga_ok g2.
Proof. split; [intros; cbn; ring|]. intros f Hf. cbn. pose proof (Hf 0%nat). pose proof (Hf 1%nat). lra. Qed.
Lemma helm2_ok : helm_solver g2 helm2.
Proof.
  intros h f a b c L HL HLp HT HP _. split; [exact I|]. intros v _.
  assert (D : d2 h = a 0%nat + a 1%nat).
  { destruct HT as [(x & y & z & E1 & E2 & E3 & _ & _ & _ & -> & _)|(E1 & _ & _ & E2 & _)]; unfold d2; rewrite E1, ?E2; [ring|reflexivity]. }
  assert (Dp : 0 <= d2 h). { rewrite D. pose proof (HP 0%nat 1 0). pose proof (HP 1%nat 1 0). lra. }
  unfold aform, inner, helm2. rewrite HL. cbn. rewrite D in *. field. split; lra.
Qed.
Example C79_nonvacuous : let p := diff_params false (fun n => if String.eqb n "n" then Some (2 / 3) else None) in
  let inn : list fld := [(fun i => match i with 0%nat => 1 | _ => 0 end)] in
  ga_ok g2 /\ helm_solver g2 helm2 /\ good_pars p /\ exists h h' Y,
    setup_helm p (Some (Some "MatrixFree")) hm_empty = FOk h /\ steps (fun _ => helm2) p h [1] inn = FOk (h', [Y]) /\
    Y 0%nat = 201 / 401 /\ Y 1%nat = 200 / 401.
Proof.
  cbv zeta. set (p := diff_params _ _). set (f := fun i : nat => match i with 0%nat => 1 | _ => 0 end).
  assert (Hp : good_pars p) by (unfold good_pars, p, diff_params, sparam; cbn; lra).
  split; [exact g2_ok|]. split; [exact helm2_ok|]. split; [exact Hp|].
  do 3 eexists. split; [|split].
  - unfold setup_helm. cbn [dp_svv p diff_params fbind]. rewrite tensor_ok by (destruct Hp; lra). reflexivity.
  - cbn [steps]. rewrite implicit_ok by (unfold p, diff_params, sparam; cbn; lra). cbn [implicit_loop fbind fst snd]. reflexivity.
  - assert (T : D00 p = 100).
    { unfold D00, p, diff_params, sparam. cbn [dp_theta dp_n dp_kpar dp_kperp String.eqb Ascii.eqb Bool.eqb]. cbn. rewrite Rmult_0_l, cos_0. field. }
    unfold helm2, d2, smul, f. cbn [set_lambda set_const hm_lambda hm_d00 hm_v00]. rewrite T. unfold p, diff_params, sparam. cbn [dp_eps]. cbn. split; field.
Qed.
Print Assumptions C79_tensor.
Print Assumptions C79_step.
Print Assumptions C79_stable.
Print Assumptions C79_coupled.

(** What a receiver takes over, whatever it gets: with matrix-free collections the first value of each of the three fields,
    otherwise the three fields as they are. Fewer than three fields are read out of bounds. *)
Theorem C79_received rnode a b c more h : exists h1, receiver_pre rnode (a :: b :: c :: more) h 0 = FOk h1 /\
  (rnode = Some (Some "MatrixFree") -> hm_d00 h1 = Some (a 0%nat) /\ hm_d01 h1 = Some (b 0%nat) /\ hm_d11 h1 = Some (c 0%nat)) /\
  (rnode <> Some (Some "MatrixFree") -> hm_v00 h1 = Some a /\ hm_v01 h1 = Some b /\ hm_v11 h1 = Some c) /\
  (forall r, (length r < 3)%nat -> receiver_pre rnode r h 0 = FUB).
Proof.
  eexists. split; [reflexivity|]. assert (G : Nat.eqb (get_collection_type rnode) eMatrixFree = true <-> rnode = Some (Some "MatrixFree")).
  { destruct rnode as [[s|]|]; [|split; discriminate|split; discriminate]. unfold get_collection_type, impl_types. cbn [find_type].
    repeat match goal with |- context [String.eqb s ?t] => destruct (String.eqb_spec s t) as [->|?] end; cbn; split; try discriminate; try reflexivity; intros [=]; congruence. }
  split; [|split].
  - intros H. apply G in H. rewrite H. cbn. auto.
  - intros H. destruct (Nat.eqb (get_collection_type rnode) eMatrixFree) eqn:E; [exfalso; apply H, G; reflexivity|]. cbn. auto.
  - intros [|x [|y [|z r]]] H; cbn in H; try lia; reflexivity.
Qed.
Print Assumptions C79_received.
