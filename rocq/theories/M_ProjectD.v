(** Double precision version of loop_project_v of include/nektar_interface/expansion_looping/ (quadrilateral, triangle, hexahedron, prism,
    tetrahedron; not pyramid): the contributions of one particle to the coefficients of its element, in the order of the calls of fetch_add, and
    the sum that a coefficient holds after its atomic additions. The exact versions, with the bounds of the arrays, are in M_Basis. Every
    operation is rounded as written (there is no sum to contract a product with: the addition is the atomic). A value that is not finite, or a
    read outside an array, is [None]. *)
From Coq Require Import Reals List Bool Arith.
From Flocq Require Import Core.
From Verif Require Import M_RealBase M_Loop M_Grid M_Double M_BorisD M_EvalD.
Import ListNotations.
Open Scope R_scope.

Notation adds := (list (nat * R)).
(** quadrilateral.hpp 62-80 *)
Definition project_quad_d (nummodes : nat) (value : R) (ls0 ls1 : list (option R)) : option adds :=
  forr nummodes (fun qx => forr nummodes (fun px (st : option adds) =>
    do l <- st;
    let mode := (qx * nummodes + px)%nat in
    do etmp0 <- entry ls0 px; do etmp1 <- entry ls1 qx;
    do t <- fl (value * etmp0); do e <- fl (t * etmp1); Some (l ++ [(mode, e)]))) (Some []).
(** triangle.hpp 65-82; state (modey, contributions) *)
Definition project_tri_d (nummodes : nat) (value : R) (ls0 ls1 : list (option R)) : option adds :=
  do r <- forr nummodes (fun px => forr (nummodes - px) (fun qx (st : option (nat * adds)) =>
    do s <- st; let '(mode, l) := s in
    do etmp0 <- (if Nat.eqb mode 1 then Some 1 else entry ls0 px); do etmp1 <- entry ls1 mode;
    do t <- fl (value * etmp0); do e <- fl (t * etmp1); Some (S mode, l ++ [(mode, e)]))) (Some (O, []));
  Some (snd r).
(** hexahedron.hpp 70-91 *)
Definition project_hex_d (nummodes : nat) (value : R) (ls0 ls1 ls2 : list (option R)) : option adds :=
  forr nummodes (fun rx (st : option adds) =>
    let mode_r := (rx * nummodes * nummodes)%nat in
    do l2 <- entry ls2 rx; do etmp2 <- fl (l2 * value);
    forr nummodes (fun qx (st : option adds) =>
      let mode_q := (qx * nummodes + mode_r)%nat in
      do l1 <- entry ls1 qx; do etmp1 <- fl (l1 * etmp2);
      forr nummodes (fun px (st : option adds) =>
        do l <- st;
        let mode := (px + mode_q)%nat in
        do etmp0 <- entry ls0 px; do e <- fl (etmp0 * etmp1); Some (l ++ [(mode, e)])) st) st) (Some []).
(** prism.hpp 75-102; state (mode_r, (mode, contributions)) *)
Definition project_prism_d (nummodes : nat) (value : R) (ls0 ls1 ls2 : list (option R)) : option adds :=
  do r <- forr nummodes (fun p (st : option (nat * (nat * adds))) =>
    do etmp0 <- entry ls0 p;
    do s0 <- st; let '(mode_r, st) := s0 in
    do st' <- forr nummodes (fun q (st : option (nat * adds)) =>
      do etmp1 <- entry ls1 q;
      forr (nummodes - p) (fun r (st : option (nat * adds)) =>
        do s <- st; let '(mode, l) := s in
        do etmp2 <- entry ls2 (mode_r + r);
        do e <- (if Nat.eqb p 0 && Nat.eqb r 1 then do t <- fl (value * etmp1); fl (t * etmp2)
                 else do t <- fl (value * etmp0); do t' <- fl (t * etmp1); fl (t' * etmp2));
        Some (S mode, l ++ [(mode, e)])) st) (Some st);
    Some ((mode_r + (nummodes - p))%nat, st')) (Some (O, (O, [])));
  Some (snd (snd r)).
(** tetrahedron.hpp 77-106; state (mode_q, (mode, contributions)) *)
Definition project_tet_d (nummodes : nat) (value : R) (ls0 ls1 ls2 : list (option R)) : option adds :=
  do r <- forr nummodes (fun p (st : option (nat * (nat * adds))) =>
    do etmp0 <- entry ls0 p;
    forr (nummodes - p) (fun q (st : option (nat * (nat * adds))) =>
      do s0 <- st; let '(mode_q, st) := s0 in
      do etmp1 <- entry ls1 mode_q;
      do st' <- forr (nummodes - p - q) (fun r (st : option (nat * adds)) =>
        do s <- st; let '(mode, l) := s in
        do etmp2 <- entry ls2 mode;
        do e <- (if Nat.eqb mode 1 then fl (value * etmp2)
                 else if Nat.eqb p 0 && Nat.eqb q 1 then do t <- fl (value * etmp1); fl (t * etmp2)
                 else do t <- fl (value * etmp0); do t' <- fl (t * etmp1); fl (t' * etmp2));
        Some (S mode, l ++ [(mode, e)])) (Some st);
      Some (S mode_q, st')) st) (Some (O, (O, [])));
  Some (snd (snd r)).
(** function_basis_projection.hpp 227-230 (the coefficients are set to 0) and the calls of fetch_add on one coefficient (in each loop_project_v),
    [values] in the order in which they happen *)
Definition deposited_d (values : list R) : option R := fold_left (fun (c : option R) v => do x <- c; fl (x + v)) values (Some 0).
