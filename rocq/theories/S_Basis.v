(** Independent specification of the modified modal bases (Karniadakis and Sherwin, ch. 3) and of the mode lists of
    the six element types, with the collapsed-vertex corrections stated on the mode's own indices. *)
From Verif Require Export S_Jacobi.
From Coq Require Export List.
Export ListNotations.

(** Modified A: 1D modes. *)
Definition modA (p : nat) (z : R) : R :=
  match p with
  | O => (1 - z) / 2
  | S O => (1 + z) / 2
  | S (S n) => (1 - z) / 2 * ((1 + z) / 2) * Jacobi 1 1 n z
  end.
(** Modified B. *)
Definition modB (p q : nat) (z : R) : R :=
  match p, q with
  | O, _ => modA q z
  | _, O => ((1 - z) / 2) ^ p
  | _, S n => ((1 - z) / 2) ^ p * ((1 + z) / 2) * Jacobi (2 * p - 1) 1 n z
  end.
(** Modified C. *)
Definition modC (p q r : nat) (z : R) : R := modB (p + q) r z.
(** Modified pyramid C. *)
Definition modPyrC (p q r : nat) (z : R) : R :=
  match p, q with
  | O, _ => modB q r z
  | S O, O => modB 1 r z
  | S O, _ => modB q r z
  | _, O | _, S O => modB p r z
  | _, _ => match r with
            | O => ((1 - z) / 2) ^ (p + q - 2)
            | S n => ((1 - z) / 2) ^ (p + q - 2) * ((1 + z) / 2) * Jacobi (2 * p + 2 * q - 3) 1 n z end
  end.

(** Index sets, in the order of the coefficient vector. *)
Definition idx1 (P : nat) : list nat := seq 0 P.
Definition idx2 (P : nat) (n1 : nat -> nat) : list (nat * nat) := flat_map (fun p => map (fun q => (p, q)) (seq 0 (n1 p))) (seq 0 P).
Definition idx3 (P : nat) (n1 : nat -> nat) (n2 : nat -> nat -> nat) : list (nat * nat * nat) :=
  flat_map (fun p => flat_map (fun q => map (fun r => (p, q, r)) (seq 0 (n2 p q))) (seq 0 (n1 p))) (seq 0 P).
Definition listA (P : nat) (z : R) : list R := map (fun p => modA p z) (seq 0 P).
Definition listB (P : nat) (z : R) : list R := map (fun '(p, q) => modB p q z) (idx2 P (fun p => (P - p)%nat)).
Definition listC (P : nat) (z : R) : list R := map (fun '(p, q, r) => modC p q r z) (idx3 P (fun p => (P - p)%nat) (fun p q => (P - p - q)%nat)).
Definition listPyrC (P : nat) (z : R) : list R := map (fun '(p, q, r) => modPyrC p q r z) (idx3 P (fun _ => P) (fun p q => (P - Nat.max p q)%nat)).

(** The modes of each element at a point in collapsed coordinates. *)
Definition modes_tri (P : nat) (e0 e1 : R) : list R :=
  map (fun '(p, q) => (if Nat.eqb p 0 && Nat.eqb q 1 then 1 else modA p e0) * modB p q e1) (idx2 P (fun p => (P - p)%nat)).
(** quad and hex: the first index runs fastest *)
Definition modes_quad (P : nat) (e0 e1 : R) : list R := map (fun '(q, p) => modA p e0 * modA q e1) (idx2 P (fun _ => P)).
Definition modes_hex (P : nat) (e0 e1 e2 : R) : list R :=
  map (fun '(r, q, p) => modA p e0 * modA q e1 * modA r e2) (idx3 P (fun _ => P) (fun _ _ => P)).
Definition modes_pyr (P : nat) (e0 e1 e2 : R) : list R :=
  map (fun '(p, q, r) => (if Nat.eqb p 0 && Nat.eqb q 0 && Nat.eqb r 1 then 1 else modA p e0 * modA q e1) * modPyrC p q r e2)
    (idx3 P (fun _ => P) (fun p q => (P - Nat.max p q)%nat)).
Definition modes_prism (P : nat) (e0 e1 e2 : R) : list R :=
  map (fun '(p, q, r) => (if Nat.eqb p 0 && Nat.eqb r 1 then 1 else modA p e0) * modA q e1 * modB p r e2)
    (idx3 P (fun _ => P) (fun p _ => (P - p)%nat)).
Definition modes_tet (P : nat) (e0 e1 e2 : R) : list R :=
  map (fun '(p, q, r) =>
    (if Nat.eqb p 0 && (Nat.eqb q 1 || Nat.eqb q 0 && Nat.eqb r 1) then 1 else modA p e0) *
    (if Nat.eqb p 0 && Nat.eqb q 0 && Nat.eqb r 1 then 1 else modB p q e1) * modC p q r e2)
    (idx3 P (fun p => (P - p)%nat) (fun p q => (P - p - q)%nat)).

(** sum of dofs times modes *)
Fixpoint dot (d b : list R) : R := match d, b with x :: d', y :: b' => x * y + dot d' b' | _, _ => 0 end.
