From Verif Require Import M_Loop S_Loop L_Loop M_Bary S_Bary L_RealBase L_Bary.
From Coq Require Import Lia Lra List Bool.
Import ListNotations.

Lemma dir_0 n phys div stride : compute_dir_0 n phys div stride = sumn n (fun i => div (i * stride)%nat * phys i).
Proof. unfold compute_dir_0. rewrite forr_sum. ring. Qed.
Lemma dir_10 n0 n1 phys div0 div1 stride : compute_dir_10 n0 n1 phys div0 div1 stride =
  tensor2 n0 n1 (fun i0 i1 => phys (i1 * n0 + i0)%nat) (fun i => div0 (i * stride)%nat) (fun i => div1 (i * stride)%nat).
Proof.
  unfold compute_dir_10, tensor2. rewrite (forr_ext n1 _ (fun i1 s => s + sumn n0 (fun i0 => phys (i1 * n0 + i0)%nat * div0 (i0 * stride)%nat * div1 (i1 * stride)%nat))).
  - rewrite forr_sum. ring.
  - intros i1 s _. cbv zeta. apply forr_sum.
Qed.
Lemma dir_210 n0 n1 n2 phys div0 div1 div2 stride : compute_dir_210 n0 n1 n2 phys div0 div1 div2 stride =
  tensor3 n0 n1 n2 (fun i0 i1 i2 => phys (i2 * (n0 * n1) + i1 * n0 + i0)%nat) (fun i => div0 (i * stride)%nat) (fun i => div1 (i * stride)%nat) (fun i => div2 (i * stride)%nat).
Proof.
  unfold compute_dir_210, tensor3. cbv zeta.
  rewrite (forr_ext n2 _ (fun i2 s => s + sumn n1 (fun i1 => sumn n0 (fun i0 => phys (i2 * (n0 * n1) + i1 * n0 + i0)%nat * div0 (i0 * stride)%nat * div1 (i1 * stride)%nat * div2 (i2 * stride)%nat)))).
  - rewrite forr_sum. ring.
  - intros i2 s _. rewrite (forr_ext n1 _ (fun i1 s => s + sumn n0 (fun i0 => phys (i2 * (n0 * n1) + i1 * n0 + i0)%nat * div0 (i0 * stride)%nat * div1 (i1 * stride)%nat * div2 (i2 * stride)%nat))).
    + apply forr_sum.
    + intros i1 s' _. rewrite (forr_ext n0 _ (fun i0 s => s + phys (i2 * (n0 * n1) + i1 * n0 + i0)%nat * div0 (i0 * stride)%nat * div1 (i1 * stride)%nat * div2 (i2 * stride)%nat)); [apply forr_sum|].
      intros; ring.
Qed.
Lemma mul_inj so n : (1 <= so)%nat -> forall i j, (i < n)%nat -> (j < n)%nat -> (i * so = j * so)%nat -> i = j.
Proof. intros Hs i j _ _ E. apply Nat.mul_cancel_r in E; auto. lia. Qed.
Lemma dir_10_interlaced nf n0 n1 phys div0 div1 stride so output : (1 <= so)%nat ->
  let out := compute_dir_10_interlaced nf n0 n1 phys div0 div1 stride so output in
  (forall f, (f < nf)%nat -> out (f * so)%nat =
    tensor2 n0 n1 (fun i0 i1 => phys ((i1 * n0 + i0) * nf + f)%nat) (fun i => div0 (i * stride)%nat) (fun i => div1 (i * stride)%nat)) /\
  (forall k, (forall f, (f < nf)%nat -> k <> (f * so)%nat) -> out k = output k).
Proof.
  intros Hs out. unfold out, compute_dir_10_interlaced. pose proof (mul_inj so nf Hs) as Hinj. clear out.
  destruct (forr_write nf (fun ix => (ix * so)%nat) (fun _ => 0) output Hinj) as [Z1 Z2]. cbv zeta in Z1, Z2. set (o0 := forr nf _ output) in *.
  edestruct (forr_acc n1 nf (fun f => (f * so)%nat)) as [A B]; [|split].
  2:{ intros f Hf. rewrite A, Z1 by auto. rewrite Rplus_0_l. unfold tensor2. apply sumn_ext. intros i1 _. instantiate (1 := fun i1 f => sumn n0 (fun i0 => phys ((i1 * n0 + i0) * nf + f)%nat * div0 (i0 * stride)%nat * div1 (i1 * stride)%nat)). reflexivity. }
  2:{ intros k Hk. rewrite B by auto. apply Z2. auto. }
  intros i1 o _. cbv zeta. apply (forr_acc n0 nf (fun f => (f * so)%nat)). intros i0 o' _.
  destruct (forr_addto nf (fun ix => (ix * so)%nat) (fun ix => phys ((i1 * n0 + i0) * nf + ix)%nat * (div0 (i0 * stride)%nat * div1 (i1 * stride)%nat)) o' Hinj) as [C E]. cbv zeta in C, E.
  split; [|exact E]. intros l Hl. rewrite C by auto. ring.
Qed.
Lemma dir_10_interlaced_N N n0 n1 phys div0 div1 stride output :
  let out := compute_dir_10_interlaced_N N n0 n1 phys div0 div1 stride output in
  (forall f, (f < N)%nat -> out f = tensor2 n0 n1 (fun i0 i1 => phys ((i1 * n0 + i0) * N + f)%nat) (fun i => div0 (i * stride)%nat) (fun i => div1 (i * stride)%nat)) /\
  (forall k, (N <= k)%nat -> out k = output k).
Proof.
  cbv zeta. unfold compute_dir_10_interlaced_N. set (tmp := forr n1 _ _).
  assert (Ht : forall f, (f < N)%nat -> tmp f = tensor2 n0 n1 (fun i0 i1 => phys ((i1 * n0 + i0) * N + f)%nat) (fun i => div0 (i * stride)%nat) (fun i => div1 (i * stride)%nat)).
  { intros f Hf. unfold tmp. edestruct (forr_acc n1 N (fun f => f)) as [A B].
    2:{ rewrite A by auto. rewrite Rplus_0_l. unfold tensor2. apply sumn_ext. intros i1 _. instantiate (1 := fun i1 f => sumn n0 (fun i0 => phys ((i1 * n0 + i0) * N + f)%nat * div0 (i0 * stride)%nat * div1 (i1 * stride)%nat)). reflexivity. }
    intros i1 o _. cbv zeta. apply (forr_acc n0 N (fun f => f)). intros i0 o' _.
    destruct (forr_addto N (fun ix => ix) (fun ix => phys ((i1 * n0 + i0) * N + ix)%nat * (div0 (i0 * stride)%nat * div1 (i1 * stride)%nat)) o' ltac:(auto)) as [C E]. cbv zeta in C, E.
    split; [|exact E]. intros l Hl. rewrite C by auto. ring. }
  destruct (forr_write N (fun ix => ix) tmp output ltac:(auto)) as [Z1 Z2]. cbv zeta in Z1, Z2. split; [intros f Hf; rewrite Z1; auto|]. intros k Hk. apply Z2. intros; lia.
Qed.
Lemma dir_210_interlaced nf n0 n1 n2 phys div0 div1 div2 stride so output : (1 <= so)%nat ->
  let out := compute_dir_210_interlaced nf n0 n1 n2 phys div0 div1 div2 stride so output in
  (forall f, (f < nf)%nat -> out (f * so)%nat =
    tensor3 n0 n1 n2 (fun i0 i1 i2 => phys ((i2 * (n0 * n1) + i1 * n0 + i0) * nf + f)%nat) (fun i => div0 (i * stride)%nat) (fun i => div1 (i * stride)%nat) (fun i => div2 (i * stride)%nat)) /\
  (forall k, (forall f, (f < nf)%nat -> k <> (f * so)%nat) -> out k = output k).
Proof.
  intros Hs out. unfold out, compute_dir_210_interlaced. pose proof (mul_inj so nf Hs) as Hinj. clear out. cbv zeta.
  destruct (forr_write nf (fun ix => (ix * so)%nat) (fun _ => 0) output Hinj) as [Z1 Z2]. cbv zeta in Z1, Z2. set (o0 := forr nf _ output) in *.
  edestruct (forr_acc n2 nf (fun f => (f * so)%nat)) as [A B]; [|split].
  2:{ intros f Hf. rewrite A, Z1 by auto. rewrite Rplus_0_l. unfold tensor3. apply sumn_ext. intros i2 _.
      instantiate (1 := fun i2 f => sumn n1 (fun i1 => sumn n0 (fun i0 => phys ((i2 * (n0 * n1) + i1 * n0 + i0) * nf + f)%nat * div0 (i0 * stride)%nat * div1 (i1 * stride)%nat * div2 (i2 * stride)%nat))). reflexivity. }
  2:{ intros k Hk. rewrite B by auto. apply Z2. auto. }
  intros i2 o _. apply (forr_acc n1 nf (fun f => (f * so)%nat)). intros i1 o' _. apply (forr_acc n0 nf (fun f => (f * so)%nat)). intros i0 o'' _.
  destruct (forr_addto nf (fun ix => (ix * so)%nat) (fun ix => phys ((i2 * (n0 * n1) + i1 * n0 + i0) * nf + ix)%nat * (div0 (i0 * stride)%nat * (div2 (i2 * stride)%nat * div1 (i1 * stride)%nat))) o'' Hinj) as [C E]. cbv zeta in C, E.
  split; [|exact E]. intros l Hl. rewrite C by auto. ring.
Qed.
Lemma dir_210_interlaced_N N n0 n1 n2 phys div0 div1 div2 stride output :
  let out := compute_dir_210_interlaced_N N n0 n1 n2 phys div0 div1 div2 stride output in
  (forall f, (f < N)%nat -> out f = tensor3 n0 n1 n2 (fun i0 i1 i2 => phys ((i2 * (n0 * n1) + i1 * n0 + i0) * N + f)%nat) (fun i => div0 (i * stride)%nat) (fun i => div1 (i * stride)%nat) (fun i => div2 (i * stride)%nat)) /\
  (forall k, (N <= k)%nat -> out k = output k).
Proof.
  cbv zeta. unfold compute_dir_210_interlaced_N. cbv zeta. set (tmp := forr n2 _ _).
  assert (Ht : forall f, (f < N)%nat -> tmp f = tensor3 n0 n1 n2 (fun i0 i1 i2 => phys ((i2 * (n0 * n1) + i1 * n0 + i0) * N + f)%nat) (fun i => div0 (i * stride)%nat) (fun i => div1 (i * stride)%nat) (fun i => div2 (i * stride)%nat)).
  { intros f Hf. unfold tmp. edestruct (forr_acc n2 N (fun f => f)) as [A B].
    2:{ rewrite A by auto. rewrite Rplus_0_l. unfold tensor3. apply sumn_ext. intros i2 _.
      instantiate (1 := fun i2 f => sumn n1 (fun i1 => sumn n0 (fun i0 => phys ((i2 * (n0 * n1) + i1 * n0 + i0) * N + f)%nat * div0 (i0 * stride)%nat * div1 (i1 * stride)%nat * div2 (i2 * stride)%nat))). reflexivity. }
    intros i2 o _. apply (forr_acc n1 N (fun f => f)). intros i1 o' _. apply (forr_acc n0 N (fun f => f)). intros i0 o'' _.
    destruct (forr_addto N (fun ix => ix) (fun ix => phys ((i2 * (n0 * n1) + i1 * n0 + i0) * N + ix)%nat * (div0 (i0 * stride)%nat * (div2 (i2 * stride)%nat * div1 (i1 * stride)%nat))) o'' ltac:(auto)) as [C E]. cbv zeta in C, E.
    split; [|exact E]. intros l Hl. rewrite C by auto. ring. }
  destruct (forr_write N (fun ix => ix) tmp output ltac:(auto)) as [Z1 Z2]. cbv zeta in Z1, Z2. split; [intros f Hf; rewrite Z1; auto|]. intros k Hk. apply Z2. intros; lia.
Qed.
(** blocks: flat lane k = f * N + b *)
Lemma lane_div f N b : (b < N)%nat -> ((f * N + b) / N = f /\ (f * N + b) mod N = b)%nat.
Proof.
  intros H. rewrite (Nat.add_comm (f * N)). rewrite Nat.div_add, Nat.mod_add, Nat.div_small, Nat.mod_small by lia. lia.
Qed.
Lemma lane_lt f nf N b : (f < nf)%nat -> (b < N)%nat -> (f * N + b < nf * N)%nat.
Proof. intros. nia. Qed.
Lemma lane_eq N k : (0 < N)%nat -> (k / N * N + k mod N = k)%nat.
Proof. intros. rewrite Nat.mul_comm. symmetry. apply Nat.div_mod. lia. Qed.
Lemma dir_210_block N nf n0 n1 n2 phys div0 div1 div2 output : (0 < N)%nat ->
  let out := compute_dir_210_interlaced_block N nf n0 n1 n2 phys div0 div1 div2 output in
  (forall f b, (f < nf)%nat -> (b < N)%nat -> out (f * N + b)%nat =
    tensor3 n0 n1 n2 (fun i0 i1 i2 => phys ((i2 * (n0 * n1) + i1 * n0 + i0) * nf + f)%nat) (fun i => div0 (i * N + b)%nat) (fun i => div1 (i * N + b)%nat) (fun i => div2 (i * N + b)%nat)) /\
  (forall k, (nf * N <= k)%nat -> out k = output k).
Proof.
  intros HN. cbv zeta. unfold compute_dir_210_interlaced_block. cbv zeta.
  rewrite (forr_nest nf N (fun f b o => upd o (f * N + b)%nat 0)) by auto.
  destruct (forr_write (nf * N) (fun k => (k / N * N + k mod N)%nat) (fun _ => 0) output) as [Z1 Z2].
  { intros i j _ _. rewrite !lane_eq by auto. auto. } cbv zeta in Z1, Z2. set (o0 := forr (nf * N) _ output) in *.
  edestruct (forr_acc n2 (nf * N) (fun l => l)) as [A B]; [|split].
  2:{ intros f b Hf Hb. pose proof (lane_lt f nf N b Hf Hb) as Hl. rewrite A by auto. pose proof (Z1 _ Hl) as Hz. rewrite lane_eq in Hz by auto. rewrite Hz, Rplus_0_l. unfold tensor3. apply sumn_ext. intros i2 _.
      instantiate (1 := fun i2 l => sumn n1 (fun i1 => sumn n0 (fun i0 => phys ((i2 * (n0 * n1) + i1 * n0 + i0) * nf + l / N)%nat * div0 (i0 * N + l mod N)%nat * div1 (i1 * N + l mod N)%nat * div2 (i2 * N + l mod N)%nat))).
      destruct (lane_div f N b Hb) as [-> ->]. reflexivity. }
  2:{ intros k Hk. rewrite B by (intros; lia). apply Z2. intros. rewrite lane_eq by auto. lia. }
  intros i2 o _. apply (forr_acc n1 (nf * N) (fun l => l)). intros i1 o' _. apply (forr_acc n0 (nf * N) (fun l => l)). intros i0 o'' _.
  rewrite (forr_nest nf N (fun f b o => upd o (f * N + b)%nat (o (f * N + b)%nat + div0 (i0 * N + b)%nat * (div1 (i1 * N + b)%nat * div2 (i2 * N + b)%nat) * phys ((i2 * (n0 * n1) + i1 * n0 + i0) * nf + f)%nat))) by auto.
  rewrite (forr_ext (nf * N) _ (fun l o => upd o l (o l + div0 (i0 * N + l mod N)%nat * (div1 (i1 * N + l mod N)%nat * div2 (i2 * N + l mod N)%nat) * phys ((i2 * (n0 * n1) + i1 * n0 + i0) * nf + l / N)%nat)))
    by (intros i s _; now rewrite lane_eq by auto).
  destruct (forr_addto (nf * N) (fun l => l) (fun l => div0 (i0 * N + l mod N)%nat * (div1 (i1 * N + l mod N)%nat * div2 (i2 * N + l mod N)%nat) * phys ((i2 * (n0 * n1) + i1 * n0 + i0) * nf + l / N)%nat) o'' ltac:(auto)) as [C E]. cbv zeta in C, E.
  split; [|exact E]. intros l Hl. rewrite C by auto. ring.
Qed.
