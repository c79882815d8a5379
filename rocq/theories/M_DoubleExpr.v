(** Arithmetic expressions in double precision, for the generated residual functions of the Newton mappings
    (include/nektar_interface/particle_cell_mapping/generated_linear/, transcribed in M_NewtonGenD): constants, inputs, negation, addition,
    subtraction and multiplication, each operation rounded as in M_Double. A compiler may contract a product with the addition that
    uses it: [contract] says, by its place in the expression, which products are not rounded. Temporaries are expanded where they are used,
    so that each use may be contracted or not (the default of the SYCL compilers contracts across statements). Reassociation is not modelled. *)
From Coq Require Import Reals ZArith List Bool.
From Flocq Require Import Core.
From Verif Require Import M_RealBase M_Grid M_Double.
Import ListNotations.
Open Scope R_scope.

(** [ELit m k] is the constant m 2^k *)
Inductive ex := EVar (n : nat) | ELit (m k : Z) | ENeg (a : ex) | EAdd (a b : ex) | ESub (a b : ex) | EMul (a b : ex).

(** the value in exact arithmetic *)
Fixpoint evalR (env : nat -> R) (e : ex) : R :=
  match e with
  | EVar n => env n
  | ELit m k => IZR m * bpow radix2 k
  | ENeg a => - evalR env a
  | EAdd a b => evalR env a + evalR env b
  | ESub a b => evalR env a - evalR env b
  | EMul a b => evalR env a * evalR env b
  end.
(** the value computed; [None]: overflow *)
Fixpoint deval (contract : list bool -> bool) (place : list bool) (env : nat -> R) (e : ex) : option R :=
  match e with
  | EVar n => Some (env n)
  | ELit m k => Some (IZR m * bpow radix2 k)
  | ENeg a => do x <- deval contract (false :: place) env a; Some (- x)
  | EAdd a b => do x <- deval contract (false :: place) env a; do y <- deval contract (true :: place) env b; fl (x + y)
  | ESub a b => do x <- deval contract (false :: place) env a; do y <- deval contract (true :: place) env b; fl (x - y)
  | EMul a b => do x <- deval contract (false :: place) env a; do y <- deval contract (true :: place) env b;
               if contract place then Some (x * y) else fl (x * y)
  end.

Declare Scope ex_scope.
Delimit Scope ex_scope with ex.
Bind Scope ex_scope with ex.
Notation "a + b" := (EAdd a b) : ex_scope.
Notation "a - b" := (ESub a b) : ex_scope.
Notation "a * b" := (EMul a b) : ex_scope.
Notation "- a" := (ENeg a) : ex_scope.
