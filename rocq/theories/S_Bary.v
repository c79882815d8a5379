(** Specification vocabulary for C43, C44. *)
From Verif Require Import M_Loop S_Loop.

Definition distinct (n : nat) (z : nat -> R) : Prop := forall i j, (i < n)%nat -> (j < n)%nat -> z i = z j -> i = j.
(** the weights of the [n] nodes [z] for evaluation at [x] *)
Definition node_weights (n : nat) (z bw : nat -> R) (x : R) (w : nat -> R) : Prop :=
  (exists k, (k < n)%nat /\ z k = x /\ w k = 1 /\ forall i, (i < n)%nat -> i <> k -> w i = 0) \/
  ((forall i, (i < n)%nat -> z i <> x) /\ sumn n (fun j => bw j / (z j - x)) <> 0 /\
   forall i, (i < n)%nat -> w i = (bw i / (z i - x)) / sumn n (fun j => bw j / (z j - x))).
(** barycentric weights of the nodes, up to a common factor *)
Definition barycentric (n : nat) (z bw : nat -> R) : Prop :=
  exists c, c <> 0 /\ forall i, (i < n)%nat -> bw i = c / prodn n (fun j => if Nat.eqb j i then 1 else z i - z j).
(** a_0 + a_1 x + a_2 x^2 + ... *)
Definition polynomial (a : list R) (x : R) : R := sumn (length a) (fun k => nth k a 0 * x ^ k).
(** tensor product polynomial: sum of a_(j,k) x^j y^k, j < n0, k < n1 (and z^l, l < n2) *)
Definition polynomial2 (n0 n1 : nat) (a : nat -> nat -> R) (x y : R) : R :=
  sumn n1 (fun k => sumn n0 (fun j => a j k * x ^ j * y ^ k)).
Definition polynomial3 (n0 n1 n2 : nat) (a : nat -> nat -> nat -> R) (x y z : R) : R :=
  sumn n2 (fun l => sumn n1 (fun k => sumn n0 (fun j => a j k l * x ^ j * y ^ k * z ^ l))).
(** tensor product sums *)
Definition tensor2 (n0 n1 : nat) (val : nat -> nat -> R) (w0 w1 : nat -> R) : R :=
  sumn n1 (fun i1 => sumn n0 (fun i0 => val i0 i1 * w0 i0 * w1 i1)).
Definition tensor3 (n0 n1 n2 : nat) (val : nat -> nat -> nat -> R) (w0 w1 w2 : nat -> R) : R :=
  sumn n2 (fun i2 => sumn n1 (fun i1 => sumn n0 (fun i0 => val i0 i1 i2 * w0 i0 * w1 i1 * w2 i2))).
