(** Specification of the initial particles of the Electrostatic2D3V solver (C106). *)
From Coq Require Import Reals ZArith List.
From Verif Require Import M_ChargedInit.
Import ListNotations.
Open Scope R_scope.

(** get_decomp_1d gives the ranks consecutive blocks of 0..n-1 *)
Definition blocks (dec : nat -> Z -> nat -> Z * Z) (size : nat) (n : Z) : Prop :=
  fst (dec size n 0%nat) = 0%Z /\ snd (dec size n (size - 1)%nat) = n /\
  (forall r, (r < size)%nat -> (fst (dec size n r) <= snd (dec size n r))%Z) /\
  (forall r, (S r < size)%nat -> fst (dec size n (S r)) = snd (dec size n r)).
(** a draw of n points of the box [0,ex0) x [0,ex1) *)
Definition box_points (n : nat) (ex0 ex1 : R) (rows : list (list R)) : Prop :=
  length rows = n /\ Forall (fun row => exists x y, row = [x; y] /\ 0 <= x < ex0 /\ 0 <= y < ex1) rows.
(** A session the solver accepts, a mesh with elements on every rank, generators that deliver numbers of [0,1) and of (0,1) where
    erf_inv needs them *)
Definition setup_ok {G} (E : cenv G) : Prop :=
  (0 < ci_size E)%nat /\ (0 <= ci_num E)%Z /\ blocks (ci_dec E) (ci_size E) (ci_num E) /\
  (forall r, (r < ci_size E)%nat -> (snd (ci_dec E (ci_size E) (ci_num E) r) - fst (ci_dec E (ci_size E) (ci_num E) r) < 2 ^ 31)%Z /\ (0 < ci_cells E r)%Z) /\
  (0 <= ci_type E <= 1)%Z /\ (0 <= ci_dist E <= 5)%Z /\ 0 < fst (ci_ext E) /\ 0 < snd (ci_ext E) /\
  (forall k, 0 <= ci_sobol E k < 1) /\
  (forall n ex0 ex1 g, 0 < ex0 -> 0 < ex1 -> box_points n ex0 ex1 (fst (ci_within E n [ex0; ex1] g))) /\
  (forall g, 0 <= fst (ci_uni E g) < 1) /\
  (ci_dist E = 4%Z -> forall g, 0 < fst (ci_uni E g)) /\
  (forall x, -1 < x < 1 -> exists y, ci_erf_inv E x = Some y).
Definition in_domain {G} (E : cenv G) (p : R * R) : Prop :=
  fst (ci_org E) <= fst p < fst (ci_org E) + fst (ci_ext E) /\ snd (ci_org E) <= snd p < snd (ci_org E) + snd (ci_ext E).
(** the same problem, possibly on another number of ranks, with other decompositions, meshes partitions and generators of the ranks *)
Definition same_problem {G G'} (E : cenv G) (E' : cenv G') : Prop :=
  ci_num E = ci_num E' /\ ci_dist E = ci_dist E' /\ ci_type E = 0%Z /\ ci_type E' = 0%Z /\ ci_org E = ci_org E' /\ ci_ext E = ci_ext E' /\
  (forall k, ci_sobol E k = ci_sobol E' k) /\
  exists s, (forall r, ci_seed E r = s) /\ (forall r, ci_seed E' r = s).
Definition pos_of (p : ipart) : R * R := k_P (ip_core p).
