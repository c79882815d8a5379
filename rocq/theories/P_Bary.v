(** Property theorems C43, C44 (barycentric interpolation). *)
From Verif Require Import M_Loop S_Loop L_Loop M_Bary S_Bary L_RealBase L_Bary L_Bary2 L_Bary3.
From Coq Require Import Lia Lra List.
Import ListNotations.

(** C43: what is written for the [n] distinct nodes, at the given offset and stride: 1 at the node the
    point is on and 0 elsewhere, or else the normalised quotients; nothing else is written. The
    evaluation only fails off the nodes and if the quotients sum to 0. *)
Theorem C43_weights : forall n x z bw base stride div, (1 <= stride)%nat -> distinct n z ->
  match preprocess_weights n x z bw base stride div with
  | Some d => node_weights n z bw x (fun i => d (base + i * stride)%nat) /\
      (forall k, (forall i, (i < n)%nat -> k <> (base + i * stride)%nat) -> d k = div k)
  | None => (forall i, (i < n)%nat -> z i <> x) /\ sumn n (fun j => bw j / (z j - x)) = 0
  end.
Proof. exact preprocess_spec. Qed.
Print Assumptions C43_weights.
(** C43: the same for each of the lanes of the blocked version *)
Theorem C43_weights_block : forall N n coord z bw base div, (0 < N)%nat -> distinct n z ->
  match preprocess_weights_block N n coord z bw base div with
  | Some d => (forall b, (b < N)%nat -> node_weights n z bw (coord b) (fun i => d (base + (i * N + b))%nat)) /\
      (forall k, (k < base \/ base + n * N <= k)%nat -> d k = div k)
  | None => exists b, (b < N)%nat /\ (forall i, (i < n)%nat -> z i <> coord b) /\ sumn n (fun j => bw j / (z j - coord b)) = 0
  end.
Proof. exact preprocess_block_spec. Qed.
Print Assumptions C43_weights_block.
(** C43: such weights sum to one; on a node they pick the value of the node *)
Theorem C43_sum_and_nodes : forall n z bw x w, distinct n z -> node_weights n z bw x w ->
  sumn n w = 1 /\ forall k v, (k < n)%nat -> z k = x -> sumn n (fun i => w i * v i) = v k.
Proof.
  intros n z bw x w Hd Hw. split; [eapply weights_sum; eauto|]. intros k v Hk Ek. destruct Hw as [(k' & Hk' & Ek' & H1 & H0)|(Hx & _)]; [|destruct (Hx k Hk Ek)].
  assert (k' = k) by (apply Hd; auto; congruence). subst k'. rewrite (sumn_single n _ k); auto; [rewrite H1; ring|]. intros i Hi Hne. rewrite H0 by auto. ring.
Qed.
Print Assumptions C43_sum_and_nodes.
(** C43: with the barycentric weights of the nodes (up to a common factor) the evaluation never fails,
    at any point, and reproduces every polynomial of degree below the number of nodes *)
Theorem C43_polynomials : forall n x z bw base stride div, (0 < n)%nat -> (1 <= stride)%nat -> distinct n z -> barycentric n z bw ->
  exists d, preprocess_weights n x z bw base stride div = Some d /\
    forall a phys, (length a <= n)%nat -> (forall i, (i < n)%nat -> phys i = polynomial a (z i)) ->
      compute_dir_0 n phys (at_ d base) stride = polynomial a x.
Proof.
  intros n x z bw base stride div Hn Hs Hd Hb. pose proof (preprocess_spec n x z bw base stride div Hs Hd) as H.
  destruct (preprocess_weights _ _ _ _ _ _ _) as [d|]; [|destruct H as [Hx H0]; destruct (bary_denominator n z bw x Hn Hd Hb Hx H0)].
  exists d. split; auto. intros a phys Hl Hp. destruct H as [Hw _]. rewrite dir_0, <- (weights_poly n z bw x _ a Hd Hb Hw Hl). apply sumn_ext. intros i Hi. rewrite Hp by auto. reflexivity.
Qed.
Print Assumptions C43_polynomials.
Theorem C43_polynomials_block : forall N n coord z bw base div, (0 < N)%nat -> (0 < n)%nat -> distinct n z -> barycentric n z bw ->
  exists d, preprocess_weights_block N n coord z bw base div = Some d /\
    forall b a, (b < N)%nat -> (length a <= n)%nat -> sumn n (fun i => d (base + (i * N + b))%nat * polynomial a (z i)) = polynomial a (coord b).
Proof.
  intros N n coord z bw base div HN Hn Hd Hb. pose proof (preprocess_block_spec N n coord z bw base div HN Hd) as H.
  destruct (preprocess_weights_block _ _ _ _ _ _ _) as [d|]; [|destruct H as (b & _ & Hx & H0); destruct (bary_denominator n z bw (coord b) Hn Hd Hb Hx H0)].
  exists d. split; auto. intros b a Hbl Hl. destruct H as [Hw _]. exact (weights_poly n z bw (coord b) _ a Hd Hb (Hw b Hbl) Hl).
Qed.
Print Assumptions C43_polynomials_block.
(** nodes -1, 0, 1 with barycentric weights 1/2, -1, 1/2; at 1/2 the weights are -1/8, 3/4, 3/8 *)
Definition ex_z : buf := fun i => match i with 0%nat => -1 | 1%nat => 0 | _ => 1 end.
Definition ex_bw : buf := fun i => match i with 1%nat => -1 | _ => /2 end.
Example C43_nonvacuous : distinct 3 ex_z /\ barycentric 3 ex_z ex_bw /\
  exists d, preprocess_weights 3 (1/2) ex_z ex_bw 5 2 (fun _ => 0) = Some d /\ d 5%nat = -1/8 /\ d 7%nat = 3/4 /\ d 9%nat = 3/8 /\
    compute_dir_0 3 (fun i => ex_z i * ex_z i) (at_ d 5) 2 = 1/4.
Proof.
  assert (Hd : distinct 3 ex_z) by (intros [|[|[|i]]] [|[|[|j]]] Hi Hj E; try lia; auto; simpl in E; lra).
  assert (Hb : barycentric 3 ex_z ex_bw).
  { exists 1. split; [lra|]. intros [|[|[|i]]] Hi; try lia; unfold ex_bw, ex_z; simpl; field. }
  split; auto. split; auto. pose proof (C43_weights 3 (1/2) ex_z ex_bw 5 2 (fun _ => 0) ltac:(lia) Hd) as H.
  destruct (C43_polynomials 3 (1/2) ex_z ex_bw 5 2 (fun _ => 0) ltac:(lia) ltac:(lia) Hd Hb) as (d & E & Hp). exists d. split; auto. rewrite E in H.
  destruct H as [[(k & Hk & Ek & _)|(_ & _ & Hw)] _].
  - exfalso. destruct k as [|[|[|k]]]; try lia; simpl in Ek; lra.
  - pose proof (Hw 0%nat ltac:(lia)) as W0. pose proof (Hw 1%nat ltac:(lia)) as W1. pose proof (Hw 2%nat ltac:(lia)) as W2. simpl in W0, W1, W2.
    rewrite W0, W1, W2. split; [field|]. split; [field|]. split; [field|].
    rewrite (Hp [0; 0; 1]); [unfold polynomial; simpl; field|simpl; lia|]. intros i _. unfold polynomial. simpl. ring.
Qed.

(** C44: all the variants compute tensor product sums, for every function and lane, and write
    nothing else. [tensor2 n0 n1 v w0 w1] = sum of v(i0,i1) w0(i0) w1(i1). *)
Theorem C44_scalar_2d : forall n0 n1 phys div0 div1 stride,
  compute_dir_10 n0 n1 phys div0 div1 stride =
  tensor2 n0 n1 (fun i0 i1 => phys (i1 * n0 + i0)%nat) (fun i => div0 (i * stride)%nat) (fun i => div1 (i * stride)%nat).
Proof. exact dir_10. Qed.
Print Assumptions C44_scalar_2d.
Theorem C44_interlaced_2d : forall nf n0 n1 phys div0 div1 stride so output, (1 <= so)%nat ->
  let out := compute_dir_10_interlaced nf n0 n1 phys div0 div1 stride so output in
  (forall f, (f < nf)%nat -> out (f * so)%nat =
    tensor2 n0 n1 (fun i0 i1 => phys ((i1 * n0 + i0) * nf + f)%nat) (fun i => div0 (i * stride)%nat) (fun i => div1 (i * stride)%nat)) /\
  (forall k, (forall f, (f < nf)%nat -> k <> (f * so)%nat) -> out k = output k).
Proof. exact dir_10_interlaced. Qed.
Print Assumptions C44_interlaced_2d.
Theorem C44_interlaced_2d_fixed : forall N n0 n1 phys div0 div1 stride output,
  let out := compute_dir_10_interlaced_N N n0 n1 phys div0 div1 stride output in
  (forall f, (f < N)%nat -> out f = tensor2 n0 n1 (fun i0 i1 => phys ((i1 * n0 + i0) * N + f)%nat) (fun i => div0 (i * stride)%nat) (fun i => div1 (i * stride)%nat)) /\
  (forall k, (N <= k)%nat -> out k = output k).
Proof. exact dir_10_interlaced_N. Qed.
Print Assumptions C44_interlaced_2d_fixed.
Theorem C44_scalar_3d : forall n0 n1 n2 phys div0 div1 div2 stride,
  compute_dir_210 n0 n1 n2 phys div0 div1 div2 stride =
  tensor3 n0 n1 n2 (fun i0 i1 i2 => phys (i2 * (n0 * n1) + i1 * n0 + i0)%nat) (fun i => div0 (i * stride)%nat) (fun i => div1 (i * stride)%nat) (fun i => div2 (i * stride)%nat).
Proof. exact dir_210. Qed.
Print Assumptions C44_scalar_3d.
Theorem C44_interlaced_3d : forall nf n0 n1 n2 phys div0 div1 div2 stride so output, (1 <= so)%nat ->
  let out := compute_dir_210_interlaced nf n0 n1 n2 phys div0 div1 div2 stride so output in
  (forall f, (f < nf)%nat -> out (f * so)%nat =
    tensor3 n0 n1 n2 (fun i0 i1 i2 => phys ((i2 * (n0 * n1) + i1 * n0 + i0) * nf + f)%nat) (fun i => div0 (i * stride)%nat) (fun i => div1 (i * stride)%nat) (fun i => div2 (i * stride)%nat)) /\
  (forall k, (forall f, (f < nf)%nat -> k <> (f * so)%nat) -> out k = output k).
Proof. exact dir_210_interlaced. Qed.
Print Assumptions C44_interlaced_3d.
Theorem C44_interlaced_3d_fixed : forall N n0 n1 n2 phys div0 div1 div2 stride output,
  let out := compute_dir_210_interlaced_N N n0 n1 n2 phys div0 div1 div2 stride output in
  (forall f, (f < N)%nat -> out f = tensor3 n0 n1 n2 (fun i0 i1 i2 => phys ((i2 * (n0 * n1) + i1 * n0 + i0) * N + f)%nat) (fun i => div0 (i * stride)%nat) (fun i => div1 (i * stride)%nat) (fun i => div2 (i * stride)%nat)) /\
  (forall k, (N <= k)%nat -> out k = output k).
Proof. exact dir_210_interlaced_N. Qed.
Print Assumptions C44_interlaced_3d_fixed.
Theorem C44_block_3d : forall N nf n0 n1 n2 phys div0 div1 div2 output, (0 < N)%nat ->
  let out := compute_dir_210_interlaced_block N nf n0 n1 n2 phys div0 div1 div2 output in
  (forall f b, (f < nf)%nat -> (b < N)%nat -> out (f * N + b)%nat =
    tensor3 n0 n1 n2 (fun i0 i1 i2 => phys ((i2 * (n0 * n1) + i1 * n0 + i0) * nf + f)%nat) (fun i => div0 (i * N + b)%nat) (fun i => div1 (i * N + b)%nat) (fun i => div2 (i * N + b)%nat)) /\
  (forall k, (nf * N <= k)%nat -> out k = output k).
Proof. exact dir_210_block. Qed.
Print Assumptions C44_block_3d.
(** C44: the complete evaluation at a point is the tensor product sum with the weights of C43 in each
    direction, computed in one work buffer of any previous content; with barycentric weights it never
    fails and reproduces the tensor product polynomials of degree below the number of nodes in
    each direction *)
Theorem C44_evaluate_2d : forall x y n0 n1 phys div z0 z1 bw0 bw1 stride, (1 <= stride)%nat -> distinct n0 z0 -> distinct n1 z1 ->
  match evaluate_2d x y n0 n1 phys div z0 z1 bw0 bw1 stride with
  | Some v => exists w0 w1, node_weights n0 z0 bw0 x w0 /\ node_weights n1 z1 bw1 y w1 /\ v = tensor2 n0 n1 (fun i0 i1 => phys (i1 * n0 + i0)%nat) w0 w1
  | None => ~ ((0 < n0)%nat /\ barycentric n0 z0 bw0 /\ (0 < n1)%nat /\ barycentric n1 z1 bw1)
  end.
Proof.
  intros x y n0 n1 phys div z0 z1 bw0 bw1 stride Hs Hd0 Hd1. unfold evaluate_2d.
  pose proof (preprocess_spec n0 x z0 bw0 0 stride div Hs Hd0) as H0. destruct (preprocess_weights n0 x z0 bw0 0 stride div) as [d|].
  2:{ intros (A & B & _). destruct H0 as [Hx E]. exact (bary_denominator n0 z0 bw0 x A Hd0 B Hx E). }
  pose proof (preprocess_spec n1 y z1 bw1 (n0 * stride) stride d Hs Hd1) as H1. destruct (preprocess_weights n1 y z1 bw1 (n0 * stride) stride d) as [d'|].
  2:{ intros (_ & _ & A & B). destruct H1 as [Hx E]. exact (bary_denominator n1 z1 bw1 y A Hd1 B Hx E). }
  exists (fun i => d (i * stride)%nat), (fun i => d' (n0 * stride + i * stride)%nat). split; [apply H0|]. split; [apply H1|].
  rewrite dir_10. apply tensor2_ext; auto. intros i Hi. apply H1. intros j Hj. nia.
Qed.
Print Assumptions C44_evaluate_2d.
Theorem C44_evaluate_3d : forall x y t n0 n1 n2 phys div z0 z1 z2 bw0 bw1 bw2 stride, (1 <= stride)%nat -> distinct n0 z0 -> distinct n1 z1 -> distinct n2 z2 ->
  match evaluate_3d x y t n0 n1 n2 phys div z0 z1 z2 bw0 bw1 bw2 stride with
  | Some v => exists w0 w1 w2, node_weights n0 z0 bw0 x w0 /\ node_weights n1 z1 bw1 y w1 /\ node_weights n2 z2 bw2 t w2 /\
      v = tensor3 n0 n1 n2 (fun i0 i1 i2 => phys (i2 * (n0 * n1) + i1 * n0 + i0)%nat) w0 w1 w2
  | None => ~ ((0 < n0)%nat /\ barycentric n0 z0 bw0 /\ (0 < n1)%nat /\ barycentric n1 z1 bw1 /\ (0 < n2)%nat /\ barycentric n2 z2 bw2)
  end.
Proof.
  intros x y t n0 n1 n2 phys div z0 z1 z2 bw0 bw1 bw2 stride Hs Hd0 Hd1 Hd2. unfold evaluate_3d.
  pose proof (preprocess_spec n0 x z0 bw0 0 stride div Hs Hd0) as H0. destruct (preprocess_weights n0 x z0 bw0 0 stride div) as [d|].
  2:{ intros (A & B & _). destruct H0 as [Hx E]. exact (bary_denominator n0 z0 bw0 x A Hd0 B Hx E). }
  pose proof (preprocess_spec n1 y z1 bw1 (n0 * stride) stride d Hs Hd1) as H1. destruct (preprocess_weights n1 y z1 bw1 (n0 * stride) stride d) as [d'|].
  2:{ intros (_ & _ & A & B & _). destruct H1 as [Hx E]. exact (bary_denominator n1 z1 bw1 y A Hd1 B Hx E). }
  pose proof (preprocess_spec n2 t z2 bw2 (n0 * stride + n1 * stride) stride d' Hs Hd2) as H2. destruct (preprocess_weights n2 t z2 bw2 (n0 * stride + n1 * stride) stride d') as [d''|].
  2:{ intros (_ & _ & _ & _ & A & B). destruct H2 as [Hx E]. exact (bary_denominator n2 z2 bw2 t A Hd2 B Hx E). }
  exists (fun i => d (i * stride)%nat), (fun i => d' (n0 * stride + i * stride)%nat), (fun i => d'' (n0 * stride + n1 * stride + i * stride)%nat).
  split; [apply H0|]. split; [apply H1|]. split; [apply H2|].
  rewrite dir_210. apply tensor3_ext; auto.
  - intros i Hi. destruct H2 as [_ H2]. rewrite H2 by (intros j Hj; nia). apply H1. intros j Hj. nia.
  - intros i Hi. unfold at_. apply H2. intros j Hj. nia.
Qed.
Print Assumptions C44_evaluate_3d.
Theorem C44_polynomials_2d : forall x y n0 n1 phys div z0 z1 bw0 bw1 stride a, (1 <= stride)%nat -> distinct n0 z0 -> distinct n1 z1 ->
  (0 < n0)%nat -> (0 < n1)%nat -> barycentric n0 z0 bw0 -> barycentric n1 z1 bw1 ->
  (forall i0 i1, (i0 < n0)%nat -> (i1 < n1)%nat -> phys (i1 * n0 + i0)%nat = polynomial2 n0 n1 a (z0 i0) (z1 i1)) ->
  evaluate_2d x y n0 n1 phys div z0 z1 bw0 bw1 stride = Some (polynomial2 n0 n1 a x y).
Proof.
  intros x y n0 n1 phys div z0 z1 bw0 bw1 stride a Hs Hd0 Hd1 Hn0 Hn1 Hb0 Hb1 Hp. pose proof (C44_evaluate_2d x y n0 n1 phys div z0 z1 bw0 bw1 stride Hs Hd0 Hd1) as H.
  destruct (evaluate_2d _ _ _ _ _ _ _ _ _ _ _) as [v|]; [|exfalso; apply H; auto]. destruct H as (w0 & w1 & W0 & W1 & ->). f_equal.
  rewrite <- (tensor2_poly n0 n1 z0 z1 x y w0 w1 a); [apply tensor2_ext; auto| |]; intros j Hj; eapply weights_mono; eauto.
Qed.
Print Assumptions C44_polynomials_2d.
Theorem C44_polynomials_3d : forall x y t n0 n1 n2 phys div z0 z1 z2 bw0 bw1 bw2 stride a, (1 <= stride)%nat -> distinct n0 z0 -> distinct n1 z1 -> distinct n2 z2 ->
  (0 < n0)%nat -> (0 < n1)%nat -> (0 < n2)%nat -> barycentric n0 z0 bw0 -> barycentric n1 z1 bw1 -> barycentric n2 z2 bw2 ->
  (forall i0 i1 i2, (i0 < n0)%nat -> (i1 < n1)%nat -> (i2 < n2)%nat -> phys (i2 * (n0 * n1) + i1 * n0 + i0)%nat = polynomial3 n0 n1 n2 a (z0 i0) (z1 i1) (z2 i2)) ->
  evaluate_3d x y t n0 n1 n2 phys div z0 z1 z2 bw0 bw1 bw2 stride = Some (polynomial3 n0 n1 n2 a x y t).
Proof.
  intros x y t n0 n1 n2 phys div z0 z1 z2 bw0 bw1 bw2 stride a Hs Hd0 Hd1 Hd2 Hn0 Hn1 Hn2 Hb0 Hb1 Hb2 Hp.
  pose proof (C44_evaluate_3d x y t n0 n1 n2 phys div z0 z1 z2 bw0 bw1 bw2 stride Hs Hd0 Hd1 Hd2) as H.
  destruct (evaluate_3d _ _ _ _ _ _ _ _ _ _ _ _ _ _ _) as [v|]; [|exfalso; apply H; auto 8]. destruct H as (w0 & w1 & w2 & W0 & W1 & W2 & ->). f_equal.
  rewrite <- (tensor3_poly n0 n1 n2 z0 z1 z2 x y t w0 w1 w2 a); [apply tensor3_ext; auto| | |]; intros j Hj; eapply weights_mono; eauto.
Qed.
Print Assumptions C44_polynomials_3d.
Example C44_nonvacuous : evaluate_2d (1/2) 0 3 3 (fun k => ex_z (k mod 3)%nat * ex_z (k mod 3)%nat + ex_z (k / 3)%nat) (fun _ => 7) ex_z ex_z ex_bw ex_bw 4 = Some (1/4).
Proof.
  destruct C43_nonvacuous as (Hd & Hb & _).
  rewrite (C44_polynomials_2d (1/2) 0 3 3 _ _ ex_z ex_z ex_bw ex_bw 4 (fun j k => match j, k with 2%nat, 0%nat => 1 | 0%nat, 1%nat => 1 | _, _ => 0 end)); auto; try lia.
  - f_equal. unfold polynomial2. simpl. field.
  - intros i0 i1 H0 H1. unfold polynomial2. destruct i0 as [|[|[|i0]]], i1 as [|[|[|i1]]]; try lia; simpl; lra.
Qed.
