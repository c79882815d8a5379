(** Double precision version of the modal basis kernels: src/nektar_interface/expansion_looping/jacobi_coeff_mod_basis.cpp (the table of
    recurrence coefficients and host_evaluate) and include/nektar_interface/basis_evaluation.hpp (mod_A, mod_B, mod_C; mod_PyrC is in M_PyrD). The exact
    version is M_Jacobi and M_Basis, and has the addressing of the tables. Every operation is rounded as written. [None] is a value that is
    not finite or not set. A product that is added to another may be contracted with the addition: the flags [F]. *)
From Coq Require Import Reals ZArith List Bool Arith.
From Flocq Require Import Core.
From Verif Require Import M_RealBase M_Loop M_Grid M_Double M_BorisD.
Import ListNotations.
Open Scope R_scope.

(** the contractions of a * b + c * d + e * f: the first sum keeps both products rounded (None), or contracts the first (Some true) or the
    second (Some false) of them; the second sum contracts e * f or not *)
Definition fuse := (option bool * bool)%type.
Definition add2_d (w : option bool) (a b c d : R) : option R :=
  match w with
  | None => do p <- fl (a * b); do q <- fl (c * d); fl (p + q)
  | Some true => do q <- fl (c * d); fl (a * b + q)
  | Some false => do p <- fl (a * b); fl (p + c * d)
  end.

(** jacobi_coeff_mod_basis.cpp 26-39, for beta = 1. The sums nx + alphax and nx + beta are sums of ints, converted exactly.
    ([c - 2 * n] may be contracted; both are exact.) *)
Definition table_entry_d (alphax nx : nat) : option (R * R * R) :=
  let a := INR (nx + alphax) in let b := INR (nx + 1) in let n := INR nx in
  do c <- fl (a + b);
  do t1 <- fl (2 * n); do t2 <- fl (c - n); do t3 <- fl (t1 * t2); do t4 <- fl (c - 2); do c_pn <- fl (t3 * t4);
  do s1 <- fl (c - 1); do s2 <- fl (s1 * c); do c_pnm10 <- fl (s2 * t4);
  do r1 <- fl (a - b); do r2 <- fl (s1 * r1); do r3 <- fl (c - t1); do c_pnm11 <- fl (r2 * r3);
  do q1 <- fl (a - 1); do q2 <- fl (-2 * q1); do q3 <- fl (b - 1); do q4 <- fl (q2 * q3); do c_pnm2 <- fl (q4 * c);
  do ic_pn <- div_d 1 c_pn;
  do k10 <- fl (ic_pn * c_pnm10); do k11 <- fl (ic_pn * c_pnm11); do k2 <- fl (ic_pn * c_pnm2);
  Some (k10, k11, k2).
(** the constructor 16-42: as make_table of M_Jacobi *)
Record jtable_d := { jd_max_n : nat; jd_max_alpha : nat; jd_stride : nat; jd_data : list (option (R * R * R)) }.
Definition make_table_d (max_n max_alpha : nat) : jtable_d :=
  {| jd_max_n := max_n; jd_max_alpha := max_alpha; jd_stride := (max_n + 1)%nat;
     jd_data := forr (max_alpha + 1) (fun alphax l => forr (max_n + 1) (fun nx l => l ++ [table_entry_d alphax nx]) l) [] |}.

(** pn = c_pnm10 * pnm1 * z + c_pnm11 * pnm1 + c_pnm2 * pnm2 with the coefficients at k_stride_n * alpha + nx: basis_evaluation.hpp 85-94
    and the same text further down, jacobi_coeff_mod_basis.cpp 71-77 *)
Definition recur_d (F : fuse) (T : jtable_d) (alpha nx : nat) (z : R) (pnm1 pnm2 : option R) : option R :=
  match nth_error (jd_data T) (jd_stride T * alpha + nx) with
  | Some (Some (k10, k11, k2)) =>
      do a <- pnm1; do b <- pnm2; do t <- fl (k10 * a); do s <- add2_d (fst F) t z k11 a; mul_add (snd F) k2 b s
  | _ => None
  end.
(** 0.5 * (2.0 * (alpha + 1) + (alpha + 3) * (z - 1.0)): basis_evaluation.hpp 100 and the same text further down, jacobi_coeff_mod_basis.cpp
    65; the first product is exact, so contracting it changes nothing *)
Definition first_d (f : bool) (alpha : nat) (z : R) : option R :=
  do d <- fl (z - 1); do c <- fl (2 * INR (alpha + 1)); do s <- mul_add f (INR (alpha + 3)) d c; fl (1 / 2 * s).
(** 2.0 + 2.0 * (z - 1.0) (82, 152) *)
Definition first_A_d (f : bool) (z : R) : option R := do d <- fl (z - 1); mul_add f 2 d 2.
(** b0 and b1 (64-65, 151-152) *)
Definition b0_d (z : R) : option R := do t <- fl (1 - z); fl (1 / 2 * t).
Definition b1_d (z : R) : option R := do t <- fl (1 + z); fl (1 / 2 * t).
(** products of values that may be not finite *)
Definition fmul_d (a b : option R) : option R := do x <- a; do y <- b; fl (x * y).

(** JacobiCoeffModBasis::host_evaluate 52-80; the assertions (55-57) and the bound of the tables: M_Jacobi *)
Definition host_evaluate_d (F : nat -> fuse) (T : jtable_d) (n alpha : nat) (z : R) : option R :=
  if Nat.eqb n 0 then Some 1 else
  let pnm1 := first_d (snd (F 1%nat)) alpha z in
  if Nat.eqb n 1 then pnm1 else
  fst (forr (n - 1) (fun i st => let nx := (2 + i)%nat in (recur_d (F nx) T alpha nx z (fst st) (snd st), fst st)) (pnm1, Some 1)).

(** The loop over qx of mod_B (72-120) and over r of mod_C (218-267); the variables pnm1 and pnm2 and the values written so far *)
Definition rowst_d := (option R * option R * list (option R))%type.
Definition row_step_d (F : nat -> fuse) (T : jtable_d) (z : R) (b0 b1 : option R) (px : nat) (b1_pow : option R) (qx : nat) (st : rowst_d) : rowst_d :=
  let '(pnm1, pnm2, out) := st in
  let alpha := (2 * px - 1)%nat in
  if Nat.eqb px 0 then
    if Nat.eqb qx 0 then (pnm1, pnm2, out ++ [b0]) else
    if Nat.eqb qx 1 then (pnm1, pnm2, out ++ [b1]) else
    if Nat.eqb qx 2 then (pnm1, Some 1, out ++ [fmul_d b0 b1]) else
    if Nat.eqb qx 3 then let p1 := first_A_d (snd (F qx)) z in (p1, pnm2, out ++ [fmul_d (fmul_d b0 b1) p1]) else
    let pn := recur_d (F qx) T 1 (qx - 2) z pnm1 pnm2 in (pn, pnm1, out ++ [fmul_d (fmul_d pn b0) b1])
  else if Nat.eqb qx 0 then (pnm1, pnm2, out ++ [b1_pow])
  else if Nat.eqb qx 1 then (pnm1, Some 1, out ++ [fmul_d b1_pow b1]) else
  if Nat.eqb qx 2 then let p1 := first_d (snd (F qx)) alpha z in (p1, pnm2, out ++ [fmul_d (fmul_d b1_pow b1) p1]) else
  let pn := recur_d (F qx) T alpha (qx - 1) z pnm1 pnm2 in (pn, pnm1, out ++ [fmul_d (fmul_d b1_pow b1) pn]).
Definition mod_row_d (F : nat -> fuse) (T : jtable_d) (z : R) (b0 b1 : option R) (px : nat) (b1_pow : option R) (n : nat) (out : list (option R)) : list (option R) :=
  snd (forr n (row_step_d F T z b0 b1 px b1_pow) (None, None, out)).
(** mod_B (60-122) *)
Definition mod_B_d (F : nat -> nat -> fuse) (T : jtable_d) (nummodes : nat) (z : R) : list (option R) :=
  let b0 := b0_d z in let b1 := b1_d z in
  snd (forr nummodes (fun px st =>
      let b1_pow := fmul_d (fst st) b0 in (b1_pow, mod_row_d (F px) T z b0 b1 px b1_pow (nummodes - px) (snd st)))
    (do x <- b0; div_d 1 x, [])).
(** mod_A (147-174) *)
Definition mod_A_d (F : nat -> fuse) (T : jtable_d) (nummodes : nat) (z : R) : list (option R) :=
  let b0 := b0_d z in let b1 := b1_d z in
  let pnm1 := first_A_d (snd (F 3%nat)) z in
  let out := [b0; b1] in
  let out := if Nat.ltb 2 nummodes then out ++ [fmul_d b0 b1] else out in
  let out := if Nat.ltb 3 nummodes then out ++ [fmul_d (fmul_d b0 b1) pnm1] else out in
  snd (forr (nummodes - 4) (fun i (st : rowst_d) =>
      let '(pnm1, pnm2, out) := st in
      let modex := (4 + i)%nat in
      let pn := recur_d (F modex) T 1 (modex - 2) z pnm1 pnm2 in (pn, pnm1, out ++ [fmul_d (fmul_d b0 b1) pn]))
    (pnm1, Some 1, out)).
(** mod_C (199-271) *)
Definition mod_C_d (F : nat -> nat -> nat -> fuse) (T : jtable_d) (nummodes : nat) (z : R) : list (option R) :=
  let b0 := b0_d z in let b1 := b1_d z in
  snd (forr nummodes (fun p st =>
      let outer_b1_pow := fmul_d (fst st) b0 in
      (outer_b1_pow, snd (forr (nummodes - p) (fun q st2 =>
          (fmul_d (fst st2) b0, mod_row_d (F p q) T z b0 b1 (p + q) (fst st2) (nummodes - p - q) (snd st2))) (outer_b1_pow, snd st))))
    (do x <- b0; div_d 1 x, [])).
