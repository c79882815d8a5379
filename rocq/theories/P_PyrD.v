(** C114 for the pyramid kernel: mod_PyrC in double precision. Model: M_PyrD. Specification: S_PyrD (sizes), S_BasisD (errors), S_Basis (the exact modes). *)
From Flocq Require Import Core.
From Verif Require Import M_RealBase L_RealBase M_Loop L_Loop M_Grid M_Double S_Double L_Double L_Double2 M_BorisD L_BaryD P_Double P_BaryD S_Jacobi L_Jacobi L_Basis1 S_Basis M_BasisD S_BasisD L_BasisD L_BasisD2 L_BasisD3 P_BasisD M_PyrD S_PyrD L_PyrD.
From Coq Require Import Reals Lra Lia ZArith Bool Arith List.
Import ListNotations.
Open Scope R_scope.

(** Every mode of the pyramid kernel, in the order of the exact modes: no overflow, and within (28 (2 P) + 64) roundings of its size, for every
    coordinate below the collapsed end. The table has to reach the weight 4 P - 7. *)
Theorem C114_mod_PyrC F G max_n max_alpha P z : coordinate z -> z < 1 -> (2 <= P <= max_n + 2)%nat -> (1 <= max_alpha)%nat -> (2 * P <= max_alpha + 3)%nat -> (4 * P <= max_alpha + 7)%nat -> (P <= 32)%nat ->
  Forall2 (mode_within (basis_error (2 * P))) (mod_PyrC_d F G (make_table_d max_n max_alpha) P z) (sized_PyrC P z).
Proof. exact (rows_PyrC F G max_n max_alpha P z). Qed.
(** The first components are the exact modes of the pyramid kernel (C51). *)
Theorem C114_lists_PyrC P z : map fst (sized_PyrC P z) = listPyrC P z.
Proof. unfold sized_PyrC, listPyrC. rewrite map_map. apply map_ext. intros [[p q] r]. reflexivity. Qed.
(** The sizes are at least 1. *)
Theorem C114_size_PyrC p q r : 1 <= size_PyrC p q r.
Proof.
  assert (B : forall a b, 1 <= size_B a b) by (intros [|a] [|[|b]]; cbn [size_B size_A]; try lra; match goal with |- 1 <= growth ?a ?n => pose proof (growth_range a n); lra end).
  destruct p as [|[|p]], q as [|[|q]]; cbn [size_PyrC]; auto. destruct r; [lra|]. match goal with |- 1 <= growth ?a ?n => pose proof (growth_range a n); lra end.
Qed.
Print Assumptions C114_mod_PyrC.
Print Assumptions C114_lists_PyrC.
Print Assumptions C114_size_PyrC.
(** A case: order 4 (30 modes), the last double before the collapsed end. *)
Example C114_PyrC_applied F G : coordinate (1 - / 2 ^ 53) /\ 1 - / 2 ^ 53 < 1 /\
  Forall2 (mode_within (basis_error 8)) (mod_PyrC_d F G (make_table_d 3 9) 4 (1 - / 2 ^ 53)) (sized_PyrC 4 (1 - / 2 ^ 53)) /\
  length (sized_PyrC 4 (1 - / 2 ^ 53)) = 30%nat /\ modPyrC 2 2 1 (1 / 2) = 1 / 4 * (1 / 4) * (3 / 4).
Proof.
  destruct C114_applied as (C & L & _). split; [auto|]. split; [auto|]. split; [apply (C114_mod_PyrC F G 3 9 4); auto; lia|]. split; [reflexivity|]. cbn. field.
Qed.
