(** Specification for C113: interpolation in double precision. The exact weights are those of S_Bary for the nodes and weights as stored. *)
From Coq Require Import Reals ZArith.
From Flocq Require Import Core.
From Verif Require Import S_Double S_Loop S_Bary.
Open Scope R_scope.

(** the nodes and weights of one direction and an evaluation point, away from underflow and overflow: the point is on a node or at least
    2^-100 from every node *)
Definition direction (n : nat) (x : R) (z bw : nat -> R) : Prop :=
  INR n <= 2 ^ 20 /\ is_double x /\ Rabs x <= 2 /\
  (forall i, (i < n)%nat -> is_double (z i) /\ Rabs (z i) <= 1 /\ is_double (bw i) /\ / 2 ^ 50 <= Rabs (bw i) <= 2 ^ 50) /\
  ((exists i, (i < n)%nat /\ z i = x) \/ (forall i, (i < n)%nat -> / 2 ^ 100 <= Rabs (z i - x))).
(** the sum of the magnitudes of the weights (the Lebesgue function of the nodes at the point) *)
Definition lebesgue (n : nat) (w : nat -> R) : R := sumn n (fun i => Rabs (w i)).
(** a nodal value: zero or of magnitude 2^-200 to 2^200 *)
Definition nodal (v : R) : Prop := is_double v /\ (v = 0 \/ / 2 ^ 200 <= Rabs v <= 2 ^ 200).
(** the sums of the magnitudes of the terms *)
Definition size2 (n0 n1 : nat) (val : nat -> nat -> R) (w0 w1 : nat -> R) : R :=
  tensor2 n0 n1 (fun i j => Rabs (val i j)) (fun i => Rabs (w0 i)) (fun i => Rabs (w1 i)).
Definition size3 (n0 n1 n2 : nat) (val : nat -> nat -> nat -> R) (w0 w1 w2 : nat -> R) : R :=
  tensor3 n0 n1 n2 (fun i j k => Rabs (val i j k)) (fun i => Rabs (w0 i)) (fun i => Rabs (w1 i)) (fun i => Rabs (w2 i)).
(** relative error of the weights of a direction, when the Lebesgue function is at most [L] *)
Definition weight_error (n : nat) (L : R) : R := (8 * INR n + 24) * L * unit_roundoff.
Definition error1 (n : nat) (L : R) : R := weight_error n L + (2 * INR n + 2) * unit_roundoff.
Definition error2 (n0 n1 : nat) (L0 L1 : R) : R := weight_error n0 L0 + weight_error n1 L1 + (2 * INR n0 * INR n1 + 4) * unit_roundoff.
Definition error3 (n0 n1 n2 : nat) (L0 L1 L2 : R) : R :=
  weight_error n0 L0 + weight_error n1 L1 + weight_error n2 L2 + (2 * INR n0 * INR n1 * INR n2 + 6) * unit_roundoff.
(** everything known about one direction: nodes, evaluation point, exact weights, bound of the Lebesgue function *)
Definition direction_ok (n : nat) (x : R) (z bw w : nat -> R) (L : R) : Prop :=
  direction n x z bw /\ distinct n z /\ node_weights n z bw x w /\ lebesgue n w <= L.
