(** Specification of the implicit stage. *)
From Verif Require Export M_Implicit.
From Coq Require Import List.
Import ListNotations.
Open Scope R_scope.

(** Entry [k] of rank [r]'s array. *)
Definition at2 (U : list (list R)) (r k : nat) : R := nth k (nth r U []) 0.
(** Every rank's array holds [nf] fields of that rank's number of points. *)
Definition sized (nf : nat) (nps : list nat) (U : list (list R)) : Prop := Forall2 (fun np u => length u = (nf * np)%nat) nps U.
(** The right hand side at [U]: rank, field, point. *)
Definition rhs_at (ode : odeop) (t : R) (nf : nat) (nps : list nat) (U : list (list R)) (r i p : nat) : R :=
  nth p (nth i (nth r (ode t (map (fun q => views nf (fst q) (snd q)) (combine nps U))) []) []) 0.
(** The right hand side returns, on every rank, [nf] fields with at least that rank's points. *)
Definition ode_sized (ode : odeop) (nf : nat) (nps : list nat) : Prop := forall t U, sized nf nps U ->
  Forall2 (fun np o => length o = nf /\ forall f, In f o -> (np <= length f)%nat) nps (ode t (map (fun q => views nf (fst q) (snd q)) (combine nps U))).
(** ref + s v *)
Definition along_line (ref v : list (list R)) (s : R) : list (list R) := map (fun p => map (fun q => fst q + s * snd q) (combine (fst p) (snd p))) (combine ref v).
Definition scaled (c : R) (v : list (list R)) : list (list R) := map (map (Rmult c)) v.
(** Sum of squares over all ranks. *)
Definition sumsq (U : list (list R)) : R := fold_right (fun u a => fold_right (fun x b => x * x + b) 0 u + a) 0 U.
