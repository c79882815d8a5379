(** Double precision version of the Boris push (solvers/Electrostatic2D3V/ParticleSystems/IntegratorBorisUniformB.hpp 71-139; exact version:
    boris_kernel in M_Pic). Operations are rounded as in M_Double; a product may be contracted with the addition that uses it. *)
From Coq Require Import Reals ZArith List Bool.
From Flocq Require Import Core.
From Verif Require Import M_RealBase M_Grid M_Double M_DoubleExpr M_Pic.
Import ListNotations.
Open Scope R_scope.

(** a division; [None] if the divisor is zero (the result is then not finite) *)
Definition div_d (a b : R) : option R := if Req_bool b 0 then None else fl (a / b).
(** values of up to three vectors as inputs 0-2, 3-5, 6-8 *)
Definition env3 (a b c : v3) (n : nat) : R :=
  let '(a0, a1, a2) := a in let '(b0, b1, b2) := b in let '(c0, c1, c2) := c in nth n [a0; a1; a2; b0; b1; b2; c0; c1; c2] 0.
(** lines 90-91: 1.0 + tmagsq; t is the first vector *)
Definition den_e : ex := (ELit 1 0 + ((EVar 0 * EVar 0 + EVar 1 * EVar 1) + EVar 2 * EVar 2))%ex.
(** lines 8-13 and 110-112, 119-121: component [i] of (first vector) x (second vector) + third vector *)
Definition cross_add_e (i : nat) : ex :=
  (match i with
   | 0%nat => (EVar 1 * EVar 5 - EVar 2 * EVar 4) + EVar 6
   | 1%nat => (EVar 2 * EVar 3 - EVar 0 * EVar 5) + EVar 7
   | _ => (EVar 0 * EVar 4 - EVar 1 * EVar 3) + EVar 8
   end)%ex.
Definition cross_add_d (contract : nat -> list bool -> bool) (at_ : nat) (a b c : v3) : option v3 :=
  do x <- deval (contract at_) [] (env3 a b c) (cross_add_e 0);
  do y <- deval (contract (S at_)) [] (env3 a b c) (cross_add_e 1);
  do z <- deval (contract (S (S at_))) [] (env3 a b c) (cross_add_e 2); Some (x, y, z).
(** lines 84-88: t. Factors of products that are not contracted, so rounded. *)
Definition boris_t_d (dt : R) (B : v3) (q m : R) : option (R * v3) :=
  let '(B0, B1, B2) := B in
  do dht <- fl (dt * (1 / 2)); do QoM <- div_d q m; do st <- fl (QoM * dht);
  do t0 <- fl (B0 * st); do t1 <- fl (B1 * st); do t2 <- fl (B2 * st); Some (st, (t0, t1, t2)).
(** lines 90-95: s *)
Definition boris_s_d (contract : nat -> list bool -> bool) (t : v3) : option v3 :=
  let '(t0, t1, t2) := t in
  do den <- deval (contract 0%nat) [] (env3 t t t) den_e; do ss <- div_d 2 den;
  do s0 <- fl (ss * t0); do s1 <- fl (ss * t1); do s2 <- fl (ss * t2); Some (s0, s1, s2).
(** lines 80-135 for one particle. [contract k] are the choices of the compiler at statement k; multiplying by -1.0 is exact. *)
Definition boris_d (contract : nat -> list bool -> bool) (dt : R) (B : v3) (coef : R) (p : cpart) : option cpart :=
  let '(V0, V1, V2) := cp_V p in let '(E0, E1) := cp_E p in let '(P0, P1) := cp_P p in
  do stt <- boris_t_d dt B (cp_Q p) (cp_M p); let '(st, t) := stt in
  do s <- boris_s_d contract t;
  do a0 <- fl (- E0 * st); do a1 <- fl (- E1 * st);
  do vm0 <- mul_add (contract 1%nat []) a0 coef V0; do vm1 <- mul_add (contract 2%nat []) a1 coef V1;
  let vm := (vm0, vm1, V2) in
  do vp <- cross_add_d contract 3 vm t vm;
  do vq <- cross_add_d contract 6 vp s vm; let '(vq0, vq1, vq2) := vq in
  do W0 <- mul_add (contract 9%nat []) a0 coef vq0; do W1 <- mul_add (contract 10%nat []) a1 coef vq1;
  do X0 <- mul_add (contract 11%nat []) dt W0 P0; do X1 <- mul_add (contract 12%nat []) dt W1 P1;
  Some {| cp_P := (X0, X1); cp_V := (W0, W1, vq2); cp_E := cp_E p; cp_Q := cp_Q p; cp_M := cp_M p |}.
(** [n] pushes; between them the boundary condition rewrites the position: [bc k] any function (transfer in M_Pic) *)
Fixpoint boris_run_d (contract : nat -> nat -> list bool -> bool) (bc : nat -> v2 -> v2) (dt : R) (B : v3) (coef : R) (n : nat) (p : cpart) : option cpart :=
  match n with
  | O => Some p
  | S k => do p1 <- boris_d (contract k) dt B coef p; boris_run_d contract bc dt B coef k (transfer (bc k) p1)
  end.
