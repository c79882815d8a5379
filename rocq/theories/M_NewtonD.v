(** The residuals of the Newton mapping types in double precision: newton_residual_v of include/nektar_interface/particle_cell_mapping/
    newton_{quad,tet,prism,hex,quad_embed_3d,triangle_embed_3d}.hpp with the generated functions of M_NewtonGenD and
    newton_relative_exit_tolerances.hpp 11-42. Not modelled in doubles: the Newton step, the pyramid (it divides). *)
From Coq Require Import Reals ZArith List Bool.
From Flocq Require Import Core.
From Verif Require Import M_RealBase M_Coord M_Grid M_Double M_DoubleExpr M_NewtonGenD.
Import ListNotations.
Open Scope R_scope.

(** where the functions find their arguments: xi, then phys, then coordinates[i][k] *)
Definition args (c : nat -> nat -> R) (xi phys : R * R * R) (n : nat) : R :=
  let '(xi0, xi1, xi2) := xi in let '(phys0, phys1, phys2) := phys in
  match n with
  | 0%nat => xi0 | 1%nat => xi1 | 2%nat => xi2 | 3%nat => phys0 | 4%nat => phys1 | 5%nat => phys2
  | _ => c ((n - 6) / 3)%nat ((n - 6) mod 3)%nat
  end.
Definition X_ (k : nat) : ex := EVar k.
Definition P_ (k : nat) : ex := EVar (3 + k).
Definition V_ (i k : nat) : ex := EVar (6 + 3 * i + k).

Definition quad_e : ex * ex := quad_f_e (X_ 0) (X_ 1) (V_ 0 0) (V_ 0 1) (V_ 1 0) (V_ 1 1) (V_ 2 0) (V_ 2 1) (V_ 3 0) (V_ 3 1) (P_ 0) (P_ 1).
Definition tet_e : ex * ex * ex := tet_f_e (X_ 0) (X_ 1) (X_ 2) (V_ 0 0) (V_ 0 1) (V_ 0 2) (V_ 1 0) (V_ 1 1) (V_ 1 2) (V_ 2 0) (V_ 2 1) (V_ 2 2)
  (V_ 3 0) (V_ 3 1) (V_ 3 2) (P_ 0) (P_ 1) (P_ 2).
Definition prism_e : ex * ex * ex := prism_f_e (X_ 0) (X_ 1) (X_ 2) (V_ 0 0) (V_ 0 1) (V_ 0 2) (V_ 1 0) (V_ 1 1) (V_ 1 2) (V_ 2 0) (V_ 2 1) (V_ 2 2)
  (V_ 3 0) (V_ 3 1) (V_ 3 2) (V_ 4 0) (V_ 4 1) (V_ 4 2) (V_ 5 0) (V_ 5 1) (V_ 5 2) (P_ 0) (P_ 1) (P_ 2).
Definition hex_e : ex * ex * ex := hex_f_e (X_ 0) (X_ 1) (X_ 2) (V_ 0 0) (V_ 0 1) (V_ 0 2) (V_ 1 0) (V_ 1 1) (V_ 1 2) (V_ 2 0) (V_ 2 1) (V_ 2 2)
  (V_ 3 0) (V_ 3 1) (V_ 3 2) (V_ 4 0) (V_ 4 1) (V_ 4 2) (V_ 5 0) (V_ 5 1) (V_ 5 2) (V_ 6 0) (V_ 6 1) (V_ 6 2) (V_ 7 0) (V_ 7 1) (V_ 7 2) (P_ 0) (P_ 1) (P_ 2).
(** newton_quad_embed_3d.hpp: the stored normal is coordinates[4] *)
Definition quademb_e : ex * ex * ex := quademb_f_e (X_ 0) (X_ 1) (X_ 2) (V_ 0 0) (V_ 0 1) (V_ 0 2) (V_ 1 0) (V_ 1 1) (V_ 1 2) (V_ 2 0) (V_ 2 1) (V_ 2 2)
  (V_ 3 0) (V_ 3 1) (V_ 3 2) (V_ 4 0) (V_ 4 1) (V_ 4 2) (P_ 0) (P_ 1) (P_ 2).
(** newton_triangle_embed_3d.hpp 59-78 (the edge vectors, rounded when stored) and 96-126 *)
Definition triemb_e : ex * ex * ex :=
  (let x0 := (X_ 0 + c1) * c1_2 in
   let x1 := (X_ 1 + c1) * c1_2 in
   let f := fun k => V_ 0 k + x0 * (V_ 1 k - V_ 0 k) + x1 * (V_ 2 k - V_ 0 k) - P_ k in
   (f 0%nat, f 1%nat, f 2%nat))%ex.

(** the components, compiled independently of each other *)
Definition eval2 (contract : list bool -> bool) (env : nat -> R) (e : ex * ex) : option (R * R * R) :=
  do f0 <- deval contract [false; false] env (fst e); do f1 <- deval contract [true; false] env (snd e); Some (f0, f1, 0).
Definition eval3 (contract : list bool -> bool) (env : nat -> R) (e : ex * ex * ex) : option (R * R * R) :=
  do f0 <- deval contract [false; false] env (fst (fst e)); do f1 <- deval contract [true; false] env (snd (fst e));
  do f2 <- deval contract [true; true] env (snd e); Some (f0, f1, f2).
(** newton_relative_exit_tolerances.hpp 11-42 *)
Definition rel_error_2d (s f : R * R * R) : option R :=
  let '(s0, s1, _) := s in let '(f0, f1, _) := f in
  do err0 <- fl (Rabs f0 * s0); do err1 <- fl (Rabs f1 * s1); Some (fmax err0 err1).
Definition rel_error_3d (s f : R * R * R) : option R :=
  let '(s0, s1, s2) := s in let '(f0, f1, f2) := f in
  do err0 <- fl (Rabs f0 * s0); do err1 <- fl (Rabs f1 * s1); do err2 <- fl (Rabs f2 * s2); Some (fmax (fmax err0 err1) err2).
(** newton_hex.hpp 97-101 *)
Definition rel_error_hex (jacobian_scaling : R) (f : R * R * R) : option R :=
  let '(f0, f1, f2) := f in fl (fmax (fmax (Rabs f0) (Rabs f1)) (Rabs f2) * jacobian_scaling).

(** newton_residual_v: the measure and the residual vector *)
Definition quad_resid_d contract c s xi phys := do f <- eval2 contract (args c xi phys) quad_e; do r <- rel_error_2d s f; Some (r, f).
Definition tet_resid_d contract c s xi phys := do f <- eval3 contract (args c xi phys) tet_e; do r <- rel_error_3d s f; Some (r, f).
Definition prism_resid_d contract c s xi phys := do f <- eval3 contract (args c xi phys) prism_e; do r <- rel_error_3d s f; Some (r, f).
Definition hex_resid_d contract c jacobian_scaling xi phys :=
  do f <- eval3 contract (args c xi phys) hex_e; do r <- rel_error_hex jacobian_scaling f; Some (r, f).
Definition quademb_resid_d contract c s xi phys := do f <- eval3 contract (args c xi phys) quademb_e; do r <- rel_error_3d s f; Some (r, f).
Definition triemb_resid_d contract c s xi phys := do f <- eval3 contract (args c xi phys) triemb_e; do r <- rel_error_3d s f; Some (r, f).
