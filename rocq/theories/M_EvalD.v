(** Double precision version of loop_evaluate_v of include/nektar_interface/expansion_looping/ (quadrilateral, triangle, hexahedron, prism,
    tetrahedron; not pyramid): the sum over modes of coefficient times basis functions at a particle. The exact versions, with the bounds of the
    arrays, are in M_Basis. Every operation is rounded as written; the last product of the term that is added to [evaluation] may be contracted
    with the addition (the flags [f], one for each mode). An entry that is not finite, or outside its array, is [None]. *)
From Coq Require Import Reals List Bool Arith.
From Flocq Require Import Core.
From Verif Require Import M_RealBase M_Loop M_Grid M_Double M_BorisD.
Import ListNotations.
Open Scope R_scope.

Definition entry (l : list (option R)) (i : nat) : option R := match nth_error l i with Some v => v | None => None end.
(** quadrilateral.hpp 45-60 *)
Definition evaluate_quad_d (f : nat -> bool) (nummodes : nat) (dofs : list R) (ls0 ls1 : list (option R)) : option R :=
  forr nummodes (fun qx => forr nummodes (fun px (st : option R) =>
    do evaluation <- st;
    let mode := (qx * nummodes + px)%nat in
    do coeff <- nth_error dofs mode; do etmp0 <- entry ls0 px; do etmp1 <- entry ls1 qx;
    do t <- fl (coeff * etmp0); mul_add (f mode) t etmp1 evaluation)) (Some 0).
(** triangle.hpp 45-63; state (mode, evaluation) *)
Definition evaluate_tri_d (f : nat -> bool) (nummodes : nat) (dofs : list R) (ls0 ls1 : list (option R)) : option R :=
  do r <- forr nummodes (fun px => forr (nummodes - px) (fun qx (st : option (nat * R)) =>
    do s <- st; let '(mode, evaluation) := s in
    do coeff <- nth_error dofs mode; do etmp0 <- (if Nat.eqb mode 1 then Some 1 else entry ls0 px); do etmp1 <- entry ls1 mode;
    do t <- fl (coeff * etmp0); do e <- mul_add (f mode) t etmp1 evaluation; Some (S mode, e))) (Some (O, 0));
  Some (snd r).
(** hexahedron.hpp 48-68 *)
Definition evaluate_hex_d (f : nat -> bool) (nummodes : nat) (dofs : list R) (ls0 ls1 ls2 : list (option R)) : option R :=
  forr nummodes (fun rx (st : option R) =>
    let mode_r := (rx * nummodes * nummodes)%nat in
    do etmp2 <- entry ls2 rx;
    forr nummodes (fun qx (st : option R) =>
      let mode_q := (qx * nummodes + mode_r)%nat in
      do l1 <- entry ls1 qx; do etmp1 <- fl (l1 * etmp2);
      forr nummodes (fun px (st : option R) =>
        do evaluation <- st;
        let mode := (px + mode_q)%nat in
        do coeff <- nth_error dofs mode; do etmp0 <- entry ls0 px;
        do t <- fl (coeff * etmp0); mul_add (f mode) t etmp1 evaluation) st) st) (Some 0).
(** prism.hpp 46-73; state (mode_r, (mode, evaluation)) *)
Definition evaluate_prism_d (f : nat -> bool) (nummodes : nat) (dofs : list R) (ls0 ls1 ls2 : list (option R)) : option R :=
  do r <- forr nummodes (fun p (st : option (nat * (nat * R))) =>
    do etmp0 <- entry ls0 p;
    do s0 <- st; let '(mode_r, st) := s0 in
    do st' <- forr nummodes (fun q (st : option (nat * R)) =>
      do etmp1 <- entry ls1 q;
      forr (nummodes - p) (fun r (st : option (nat * R)) =>
        do s <- st; let '(mode, evaluation) := s in
        do etmp2 <- entry ls2 (mode_r + r);
        do tmp <- (if Nat.eqb p 0 && Nat.eqb r 1 then fl (etmp1 * etmp2) else do t <- fl (etmp0 * etmp1); fl (t * etmp2));
        do coeff <- nth_error dofs mode;
        do e <- mul_add (f mode) coeff tmp evaluation; Some (S mode, e)) st) (Some st);
    Some ((mode_r + (nummodes - p))%nat, st')) (Some (O, (O, 0)));
  Some (snd (snd r)).
(** tetrahedron.hpp 48-75; state (mode_q, (mode, evaluation)) *)
Definition evaluate_tet_d (f : nat -> bool) (nummodes : nat) (dofs : list R) (ls0 ls1 ls2 : list (option R)) : option R :=
  do r <- forr nummodes (fun p (st : option (nat * (nat * R))) =>
    do etmp0 <- entry ls0 p;
    forr (nummodes - p) (fun q (st : option (nat * (nat * R))) =>
      do s0 <- st; let '(mode_q, st) := s0 in
      do etmp1 <- entry ls1 mode_q;
      do st' <- forr (nummodes - p - q) (fun r (st : option (nat * R)) =>
        do s <- st; let '(mode, evaluation) := s in
        do etmp2 <- entry ls2 mode; do coeff <- nth_error dofs mode;
        do e <- (if Nat.eqb mode 1 then mul_add (f mode) coeff etmp2 evaluation
                 else if Nat.eqb p 0 && Nat.eqb q 1 then do t <- fl (coeff * etmp1); mul_add (f mode) t etmp2 evaluation
                 else do t <- fl (coeff * etmp0); do t' <- fl (t * etmp1); mul_add (f mode) t' etmp2 evaluation);
        Some (S mode, e)) (Some st);
      Some (S mode_q, st')) st) (Some (O, (O, 0)));
  Some (snd (snd r)).
