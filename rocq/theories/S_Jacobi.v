(** Independent specification: the Jacobi polynomial in its explicit form
    P_n^(a,b)(z) = sum_k (n+a)! (n+k+a+b)! / ((n-k)! (a+k)! k! (n+a+b)!) ((z-1)/2)^k. *)
From Verif Require Export M_RealBase.
From Coq Require Export Arith Factorial.

Fixpoint rsum (n : nat) (f : nat -> R) : R := match n with O => 0 | S m => rsum m f + f m end.
Definition jcoef (a b n k : nat) : R :=
  if Nat.leb k n then
    INR (fact (n + a)) * INR (fact (n + k + a + b)) / (INR (fact (n - k)) * INR (fact (a + k)) * INR (fact k) * INR (fact (n + a + b)))
  else 0.
Definition Jacobi (a b n : nat) (z : R) : R := rsum (n + 1) (fun k => jcoef a b n k * ((z - 1) / 2) ^ k).
