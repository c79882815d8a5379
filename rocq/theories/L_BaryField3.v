(** Lemmas: one particle, one block. *)
From Verif Require Import M_BaryField S_BaryField L_RealBase L_Coord L_Loop L_Bary L_Bary2 L_Bary3 L_BaryField L_BaryField2.
From Flocq Require Import Core.Raux.
From Coq Require Import Lra Lia List ZArith Bool.
Import ListNotations.
Open Scope R_scope.

Definition ci_ok (ndim mx np : nat) (e : expn) (ci : cinfo) : Prop :=
  ci_shape ci = ex_shape e /\ ci_z ci = ex_z e /\ ci_bw ci = ex_bw e /\ ci_off ci = ex_off e /\ quadrature_ok ndim e /\
  (forall d, (d < ndim)%nat -> (npts e d <= mx)%nat) /\ (ex_off e + npoints ndim e <= np)%nat.
Lemma to_collapsed_total3 s xi : exists eta, generic_to_collapsed_3d s xi = Some eta.
Proof. destruct xi as [[a b] c]. unfold generic_to_collapsed_3d. rewrite !rdiv_ok by apply guard_nonzero. cbn [bind]. eauto. Qed.
Lemma to_collapsed_total2 s xi : exists eta, generic_to_collapsed_2d s xi = Some eta.
Proof. destruct xi as [a b]. unfold generic_to_collapsed_2d. rewrite !rdiv_ok by apply guard_nonzero. cbn [bind]. eauto. Qed.
Lemma axis_ok n x z bw base stride div : (0 < n)%nat -> (1 <= stride)%nat -> distinct n z -> barycentric n z bw ->
  exists m, preprocess_weights n x z bw base stride div = Some m /\ node_weights n z bw x (fun i => m (base + i * stride)%nat) /\
    (forall k, (forall i, (i < n)%nat -> k <> (base + i * stride)%nat) -> m k = div k).
Proof.
  intros Hn Hs Hd Hb. pose proof (preprocess_spec n x z bw base stride div Hs Hd) as H. destruct (preprocess_weights _ _ _ _ _ _ _) as [m|].
  - exists m. split; [reflexivity|exact H].
  - destruct H as [H1 H2]. exfalso. revert H2. apply bary_denominator; auto.
Qed.
Lemma axis_block_ok N n coord z bw base div : (0 < n)%nat -> (0 < N)%nat -> distinct n z -> barycentric n z bw ->
  exists m, preprocess_weights_block N n coord z bw base div = Some m /\ (forall b, (b < N)%nat -> node_weights n z bw (coord b) (fun i => m (base + (i * N + b))%nat)) /\
      (forall k, (k < base \/ base + n * N <= k)%nat -> m k = div k).
Proof.
  intros Hn HN Hd Hb. pose proof (preprocess_block_spec N n coord z bw base div HN Hd) as H. destruct (preprocess_weights_block _ _ _ _ _ _ _) as [m|].
  - exists m. split; [reflexivity|exact H].
  - destruct H as (b & H0 & H1 & H2). exfalso. revert H2. apply bary_denominator; auto.
Qed.
Lemma node_weights_ext n z bw x w w' : (forall i, (i < n)%nat -> w i = w' i) -> node_weights n z bw x w -> node_weights n z bw x w'.
Proof.
  intros E [(k & A & B & C & D)|(A & B & C)]; [left|right].
  - exists k. repeat split; auto; [rewrite <- E; auto|]. intros i Hi Hk. rewrite <- E; auto.
  - repeat split; auto. intros i Hi. rewrite <- E; auto.
Qed.
Lemma idx2 n0 n1 i0 i1 : (i0 < n0)%nat -> (i1 < n1)%nat -> (i1 * n0 + i0 < n0 * n1)%nat.
Proof. nia. Qed.
Lemma idx3 n0 n1 n2 i0 i1 i2 : (i0 < n0)%nat -> (i1 < n1)%nat -> (i2 < n2)%nat -> (i2 * (n0 * n1) + i1 * n0 + i0 < n0 * n1 * n2)%nat.
Proof. intros H0 H1 H2. pose proof (idx2 n0 n1 i0 i1 H0 H1). nia. Qed.
Lemma ci_num_npts ndim mx np e ci d : ci_ok ndim mx np e ci -> ci_num ci d = npts e d.
Proof. intros (_ & E & _). unfold ci_num, npts, dir. now rewrite E. Qed.
Lemma reads_fit_ok ndim mx np e ci : (0 < ndim)%nat -> ci_ok ndim mx np e ci -> reads_fit np mx ndim ci = true.
Proof.
  intros Hn H. assert (Hd : forall d, ci_num ci d = npts e d) by (intros d; eapply ci_num_npts; eauto). destruct H as (_ & _ & _ & Ho & _ & Hm & Hf). unfold reads_fit. rewrite Ho, Hd. apply andb_true_intro. split; apply Nat.leb_le; [|apply Hm; lia].
  erewrite map_ext by exact Hd. exact Hf.
Qed.
Definition phys_ok (np : nat) (c : bcall) : Prop := bc_syms c <> [] /\ length (bc_phys c) = nfun c /\ forall v, In v (bc_phys c) -> length v = np.
Lemma phys0 np c : phys_ok np c -> length (nth 0 (bc_phys c) []) = np.
Proof. intros (H1 & H2 & H3). apply H3, nth_In. rewrite H2. unfold nfun. destruct (bc_syms c); [congruence|cbn; lia]. Qed.
(** The value of function [fx] the kernels read. *)
Lemma phys_read np c e fx v j : phys_ok np c -> nth_error (bc_phys c) fx = Some v -> (ex_off e + j < np)%nat ->
  at_ (interlaced (bc_phys c)) (ex_off e * nfun c) (j * nfun c + fx)%nat = nth (ex_off e + j) v 0.
Proof.
  intros (H1 & H2 & H3) Hv Hj. unfold at_. rewrite <- H2. replace (ex_off e * length (bc_phys c) + (j * length (bc_phys c) + fx))%nat with ((ex_off e + j) * length (bc_phys c) + fx)%nat by lia.
  rewrite (interlaced_spec np) by (auto; apply nth_error_Some; congruence). f_equal. now apply nth_error_nth.
Qed.
Lemma bufof_pts e d : bufof (dir (ex_z e) d) = pts e d. Proof. reflexivity. Qed.
Lemma bufof_wts e d : bufof (dir (ex_bw e) d) = wts e d. Proof. reflexivity. Qed.

Lemma particle_2d_spec mx stride np cells c cell layer ci e : (1 <= stride)%nat -> phys_ok np c -> nth_error cells cell = Some ci -> ci_ok 2 mx np e ci ->
  exists val, (forall d, particle_2d mx stride cells c cell layer d = write_all c cell layer val d) /\
    forall fx v, nth_error (bc_phys c) fx = Some v -> field_value 2 e v (fun k => bc_ref c cell k layer) (val fx).
Proof.
  intros Hs Hp Hc Hci. pose proof (fun d => ci_num_npts _ _ _ _ _ d Hci) as Hd. pose proof (reads_fit_ok 2 _ _ _ _ ltac:(lia) Hci) as Hr.
  destruct Hci as (Es & Ez & Ew & Eo & Q & M & F). unfold npoints in F. cbn [seq map fold_left] in F.
  destruct (Q 0%nat ltac:(lia)) as (P0 & L0 & D0 & B0). destruct (Q 1%nat ltac:(lia)) as (P1 & L1 & D1 & B1). pose proof (M 0%nat ltac:(lia)) as M0. pose proof (M 1%nat ltac:(lia)) as M1.
  unfold particle_2d. rewrite Hc, (phys0 np c Hp), Hr, !Hd, Es, Ez, Ew, Eo, !bufof_pts, !bufof_wts. cbn [negb].
  destruct (to_collapsed_total2 (ex_shape e) (bc_ref c cell 0%nat layer, bc_ref c cell 1%nat layer)) as [eta Heta]. rewrite Heta. cbn [fnan fbind]. cbv zeta.
  set (nf := nfun c) in *.
  destruct (axis_ok (npts e 0) (fst eta) (pts e 0) (wts e 0) (nf * stride) stride (bc_mem c cell layer) P0 Hs D0 B0) as (m0 & E0 & W0 & U0). rewrite E0. cbn [fnan fbind].
  destruct (axis_ok (npts e 1) (snd eta) (pts e 1) (wts e 1) ((nf + mx) * stride) stride m0 P1 Hs D1 B1) as (m1 & E1 & W1 & U1). rewrite E1. cbn [fnan fbind].
  eexists. split; [intros d; reflexivity|]. intros fx v Hv. left. split; [reflexivity|]. exists eta. split; [exact Heta|].
  assert (Hfx : (fx < nf)%nat) by (destruct Hp as (_ & Hl & _); fold nf in Hl; rewrite <- Hl; apply nth_error_Some; congruence).
  exists (fun i => m0 (nf * stride + i * stride)%nat), (fun i => m1 ((nf + mx) * stride + i * stride)%nat). split; [exact W0|]. split; [exact W1|].
  pose proof (dir_10_interlaced nf (npts e 0) (npts e 1) (at_ (interlaced (bc_phys c)) (ex_off e * nf)) (at_ m1 (nf * stride)) (at_ m1 ((nf + mx) * stride)) stride stride m1 Hs) as K. cbv zeta in K. destruct K as [K _]. cbv beta. rewrite K by exact Hfx.
  apply tensor2_ext.
  - intros i j Hi Hj. apply phys_read with (np := np); auto. pose proof (idx2 _ _ _ _ Hi Hj). lia.
  - intros i Hi. unfold at_. rewrite U1; [reflexivity|]. intros j Hj. replace (nf * stride + i * stride)%nat with ((nf + i) * stride)%nat by lia. replace ((nf + mx) * stride + j * stride)%nat with ((nf + mx + j) * stride)%nat by lia. intros Eq. apply Nat.mul_cancel_r in Eq; lia.
  - reflexivity.
Qed.

Lemma particle_3d_spec mx stride np cells c cell layer ci e : (1 <= stride)%nat -> phys_ok np c -> nth_error cells cell = Some ci -> ci_ok 3 mx np e ci ->
  exists val, (forall d, particle_3d mx stride cells c cell layer d = write_all c cell layer val d) /\
    forall fx v, nth_error (bc_phys c) fx = Some v -> field_value 3 e v (fun k => bc_ref c cell k layer) (val fx).
Proof.
  intros Hs Hp Hc Hci. pose proof (fun d => ci_num_npts _ _ _ _ _ d Hci) as Hd. pose proof (reads_fit_ok 3 _ _ _ _ ltac:(lia) Hci) as Hr.
  destruct Hci as (Es & Ez & Ew & Eo & Q & M & F). unfold npoints in F. cbn [seq map fold_left] in F.
  destruct (Q 0%nat ltac:(lia)) as (P0 & L0 & D0 & B0). destruct (Q 1%nat ltac:(lia)) as (P1 & L1 & D1 & B1). destruct (Q 2%nat ltac:(lia)) as (P2 & L2 & D2 & B2).
  pose proof (M 0%nat ltac:(lia)) as M0. pose proof (M 1%nat ltac:(lia)) as M1. pose proof (M 2%nat ltac:(lia)) as M2.
  unfold particle_3d. rewrite Hc, (phys0 np c Hp), Hr, !Hd, Es, Ez, Ew, Eo, !bufof_pts, !bufof_wts. cbn [negb].
  destruct (to_collapsed_total3 (ex_shape e) (bc_ref c cell 0%nat layer, bc_ref c cell 1%nat layer, bc_ref c cell 2%nat layer)) as [eta Heta]. rewrite Heta. cbn [fnan fbind]. cbv zeta.
  set (nf := nfun c) in *.
  destruct (axis_ok (npts e 0) (fst (fst eta)) (pts e 0) (wts e 0) (nf * stride) stride (bc_mem c cell layer) P0 Hs D0 B0) as (m0 & E0 & W0 & U0). rewrite E0. cbn [fnan fbind].
  destruct (axis_ok (npts e 1) (snd (fst eta)) (pts e 1) (wts e 1) ((nf + mx) * stride) stride m0 P1 Hs D1 B1) as (m1 & E1 & W1 & U1). rewrite E1. cbn [fnan fbind].
  destruct (axis_ok (npts e 2) (snd eta) (pts e 2) (wts e 2) ((nf + 2 * mx) * stride) stride m1 P2 Hs D2 B2) as (m2 & E2 & W2 & U2). rewrite E2. cbn [fnan fbind].
  eexists. split; [intros d; reflexivity|]. intros fx v Hv. right. split; [reflexivity|]. exists eta. split; [exact Heta|].
  assert (Hfx : (fx < nf)%nat) by (destruct Hp as (_ & Hl & _); fold nf in Hl; rewrite <- Hl; apply nth_error_Some; congruence).
  exists (fun i => m0 (nf * stride + i * stride)%nat), (fun i => m1 ((nf + mx) * stride + i * stride)%nat), (fun i => m2 ((nf + 2 * mx) * stride + i * stride)%nat). split; [exact W0|]. split; [exact W1|]. split; [exact W2|].
  pose proof (dir_210_interlaced nf (npts e 0) (npts e 1) (npts e 2) (at_ (interlaced (bc_phys c)) (ex_off e * nf)) (at_ m2 (nf * stride)) (at_ m2 ((nf + mx) * stride)) (at_ m2 ((nf + 2 * mx) * stride)) stride stride m2 Hs) as K. cbv zeta in K. destruct K as [K _]. cbv beta. rewrite K by exact Hfx.
  assert (Hne : forall a b i j, (a + i < b)%nat -> (a * stride + i * stride)%nat <> (b * stride + j * stride)%nat) by (intros a b i j Hab Eq; rewrite <- !Nat.mul_add_distr_r in Eq; apply Nat.mul_cancel_r in Eq; lia).
  apply tensor3_ext.
  - intros i j k Hi Hj Hk. apply phys_read with (np := np); auto. pose proof (idx3 _ _ _ _ _ _ Hi Hj Hk). lia.
  - intros i Hi. unfold at_. rewrite U2, U1; [reflexivity| |]; intros j Hj; apply Hne; lia.
  - intros i Hi. unfold at_. rewrite U2; [reflexivity|]. intros j Hj. apply Hne. lia.
  - reflexivity.
Qed.

Lemma block_3d_spec N mx np junk cells c npart cell block ci e : (0 < N)%nat -> phys_ok np c -> nth_error cells cell = Some ci -> ci_ok 3 mx np e ci ->
  let start := (block * N)%nat in let bound := Nat.min N (npart - start) in
  exists val, (forall d, block_3d N mx junk cells c npart cell block d =
      floop (fun x => floop (fun b => wr c cell (start + b) (fst (snd x)) (snd (snd x)) (val (fst x) b)) (seq 0 bound)) (combine (seq 0 (nfun c)) (bc_syms c)) d) /\
    forall fx v b, nth_error (bc_phys c) fx = Some v -> (b < bound)%nat -> field_value 3 e v (fun k => bc_ref c cell k (start + b)%nat) (val fx b).
Proof.
  intros HN Hp Hc Hci start bound. pose proof (fun d => ci_num_npts _ _ _ _ _ d Hci) as Hd. pose proof (reads_fit_ok 3 _ _ _ _ ltac:(lia) Hci) as Hr.
  destruct Hci as (Es & Ez & Ew & Eo & Q & M & F). unfold npoints in F. cbn [seq map fold_left] in F.
  destruct (Q 0%nat ltac:(lia)) as (P0 & L0 & D0 & B0). destruct (Q 1%nat ltac:(lia)) as (P1 & L1 & D1 & B1). destruct (Q 2%nat ltac:(lia)) as (P2 & L2 & D2 & B2).
  pose proof (M 0%nat ltac:(lia)) as M0. pose proof (M 1%nat ltac:(lia)) as M1. pose proof (M 2%nat ltac:(lia)) as M2.
  unfold block_3d. rewrite Hc, (phys0 np c Hp), Hr, !Hd, Es, Ez, Ew, Eo, !bufof_pts, !bufof_wts. cbn [negb]. cbv zeta. fold start. fold bound.
  set (nf := nfun c) in *. set (xi := fun b : nat => if Nat.ltb b bound then (bc_ref c cell 0%nat (start + b)%nat, bc_ref c cell 1%nat (start + b)%nat, bc_ref c cell 2%nat (start + b)%nat) else junk b) in *.
  set (eta := fun b => match generic_to_collapsed_3d (ex_shape e) (xi b) with Some e => e | None => (0, 0, 0) end).
  assert (Heta : forall b, generic_to_collapsed_3d (ex_shape e) (xi b) = Some (eta b)) by (intros b; unfold eta; destruct (to_collapsed_total3 (ex_shape e) (xi b)) as [x ->]; reflexivity).
  destruct (forallb _ (seq 0 bound)) eqn:Ef; [|exfalso; apply not_true_iff_false in Ef; apply Ef, forallb_forall; intros b _; match goal with |- match ?x with _ => _ end = true => change x with (generic_to_collapsed_3d (ex_shape e) (xi b)); rewrite Heta; reflexivity end].
  cbn [negb]. set (b0 := (N * nf)%nat) in *. set (b1 := (b0 + N * mx)%nat) in *. set (b2 := (b1 + N * mx)%nat) in *.
  destruct (axis_block_ok N (npts e 0) (fun b => fst (fst (eta b))) (pts e 0) (wts e 0) b0 (bc_mem c cell start) P0 HN D0 B0) as (m0 & E0 & W0 & U0).
  destruct (axis_block_ok N (npts e 1) (fun b => snd (fst (eta b))) (pts e 1) (wts e 1) b1 m0 P1 HN D1 B1) as (m1 & E1 & W1 & U1).
  destruct (axis_block_ok N (npts e 2) (fun b => snd (eta b)) (pts e 2) (wts e 2) b2 m1 P2 HN D2 B2) as (m2 & E2 & W2 & U2).
  eexists (fun fx b => _). split.
  - intros d. change (preprocess_weights_block N (npts e 0) _ _ _ b0 _) with (preprocess_weights_block N (npts e 0) (fun b => fst (fst (eta b))) (pts e 0) (wts e 0) b0 (bc_mem c cell start)). rewrite E0. cbn [fnan fbind].
    change (preprocess_weights_block N (npts e 1) _ _ _ b1 _) with (preprocess_weights_block N (npts e 1) (fun b => snd (fst (eta b))) (pts e 1) (wts e 1) b1 m0). rewrite E1. cbn [fnan fbind].
    change (preprocess_weights_block N (npts e 2) _ _ _ b2 _) with (preprocess_weights_block N (npts e 2) (fun b => snd (eta b)) (pts e 2) (wts e 2) b2 m1). rewrite E2. cbn [fnan fbind].
    unfold floop at 1. apply fold_left_ext. intros acc [fx [sym comp]]. cbn [fst snd]. rewrite <- floop_fail. reflexivity.
  - intros fx v b Hv Hb. cbv beta. right. split; [reflexivity|]. exists (eta b). split; [rewrite <- Heta; f_equal; unfold xi; apply Nat.ltb_lt in Hb; rewrite Hb; reflexivity|].
    assert (HbN : (b < N)%nat) by (unfold bound in Hb; lia).
    assert (Hfx : (fx < nf)%nat) by (destruct Hp as (_ & Hl & _); fold nf in Hl; rewrite <- Hl; apply nth_error_Some; congruence).
    exists (fun i => m0 (b0 + (i * N + b))%nat), (fun i => m1 (b1 + (i * N + b))%nat), (fun i => m2 (b2 + (i * N + b))%nat). split; [apply W0; exact HbN|]. split; [apply W1; exact HbN|]. split; [apply W2; exact HbN|].
    pose proof (dir_210_block N nf (npts e 0) (npts e 1) (npts e 2) (at_ (interlaced (bc_phys c)) (ex_off e * nf)) (at_ m2 b0) (at_ m2 b1) (at_ m2 b2) m2 HN) as K. cbv zeta in K. destruct K as [K _]. rewrite K by assumption.
    assert (Hlt : forall i n, (i < n)%nat -> (n <= mx)%nat -> (i * N + b < N * mx)%nat) by (intros i n Hi Hn; nia).
    apply tensor3_ext.
    + intros i j k Hi Hj Hk. apply phys_read with (np := np); auto. pose proof (idx3 _ _ _ _ _ _ Hi Hj Hk). lia.
    + intros i Hi. unfold at_. specialize (Hlt i _ Hi M0). rewrite U2, U1; [reflexivity| |]; unfold b2, b1; lia.
    + intros i Hi. unfold at_. specialize (Hlt i _ Hi M1). rewrite U2; [reflexivity|]. unfold b2. lia.
    + reflexivity.
Qed.
