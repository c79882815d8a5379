(** Specification vocabulary for C99. *)
From Verif Require Import M_Bytes.
From Verif Require Export M_FieldEval S_Basis2.
From Coq Require Import List ZArith.
Import ListNotations.

(** A field as Nektar++ makes them: element ids are positions, one expansion per geometry, each with the same number (at
    least 2) of modes in all directions, its coefficients in the field's vector of [n]. *)
Definition field_good (n : nat) (exps : list fexp) : Prop :=
  (forall i e, nth_error exps i = Some e -> fe_elmt e = Z.of_nat i) /\ NoDup (map fe_gid exps) /\
  (forall e, In e exps -> (2 <= cell_P (fe_exp e))%nat /\ (forall d nm tnm, nth_error (ex_base (fe_exp e)) d = Some (nm, tnm) -> nm = cell_P (fe_exp e)) /\
     (fe_off e + snd (total_modes_s (ex_shape (fe_exp e)) (cell_P (fe_exp e))) <= n)%nat).
Definition expansion_of (exps : list fexp) (g : Z) (e : fexp) : Prop := In e exps /\ fe_gid e = g.
(** The value of the function with coefficients [coeffs] at reference position [xi] of the expansion's element. *)
Definition value_at (e : fexp) (coeffs : list R) (xi : R * R * R) (v : R) : Prop :=
  exists e0 e1 e2, collapse (ex_shape (fe_exp e)) xi = Some (e0, e1, e2) /\
    v = dot (skipn (fe_off e) coeffs) (smodes (ex_shape (fe_exp e)) (cell_P (fe_exp e)) e0 e1 e2).
(** The particle is not on a collapsed edge or vertex of its element (where the kernels divide by zero, C51). *)
Definition clear (s : shape) (xi : R * R * R) : Prop := exists eta, collapse s xi = Some eta /\ regular s eta.
(** The particles of the call. *)
Definition member (g : particles) (cell layer : nat) : Prop :=
  match g with
  | Group npart | SubGroup true npart _ => (layer < nth cell npart O)%nat
  | SubGroup false _ sel => In layer (sel cell)
  end.
