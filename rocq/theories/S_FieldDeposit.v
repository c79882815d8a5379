(** Specification vocabulary for C101. *)
From Verif Require Import M_Bytes M_FieldDeposit S_FieldEval S_Basis2.
From Verif Require Export S_FieldProject.
From Coq Require Import List ZArith.
Import ListNotations.

(** The particles of a call are listed once each. *)
Definition distinct (g : particles) : Prop := match g with SubGroup false _ sel => forall cell, NoDup (sel cell) | _ => True end.
(** [ms] lists the particles (cell, layer) of the call, each once. *)
Definition lists_particles (ncells : nat) (g : particles) (ms : list (nat * nat)) : Prop :=
  NoDup ms /\ forall cell layer, In (cell, layer) ms <-> (cell < ncells)%nat /\ member g cell layer.
(** [val cell layer] is the value at the particle's reference position of the function with coefficients [u]. *)
Definition values_of (exps : list fexp) (gids : list Z) (ref : nat -> nat -> nat -> R) (u : list R) (ms : list (nat * nat)) (val : nat -> nat -> R) : Prop :=
  forall cell layer x e, In (cell, layer) ms -> nth_error gids cell = Some x -> expansion_of exps x e ->
    value_at e u (ref_position (ex_shape (fe_exp e)) (fun k => ref cell k layer)) (val cell layer).
(** Sum over the particles. *)
Definition over_particles (ms : list (nat * nat)) (f : nat -> nat -> R) : R := Lsum (fun cl => f (fst cl) (snd cl)) ms.
(** Fields that agree in everything the constructor asks: sizes, elements in the same order, and in each of the first field's
    coordinate directions the same number of modes and basis type. *)
Definition same_space (f0 f : pfield) : Prop :=
  pf_ncoeffs f = pf_ncoeffs f0 /\ pf_npoints f = pf_npoints f0 /\ length (pf_exps f) = length (pf_exps f0) /\
  forall k e0 e t0 t, nth_error (pf_exps f0) k = Some e0 -> nth_error (pf_exps f) k = Some e -> nth_error (pf_types f0) k = Some t0 -> nth_error (pf_types f) k = Some t ->
    pf_coordim f = pf_coordim f0 /\ fe_gid e = fe_gid e0 /\
    forall dx, (dx < pf_coordim f0)%nat ->
      option_map fst (nth_error (ex_base (fe_exp e)) dx) = option_map fst (nth_error (ex_base (fe_exp e0)) dx) /\ nth_error t dx = nth_error t0 dx.
(** Every expansion has a basis (with its type) in each of the [ndim] directions. *)
Definition has_bases (ndim : nat) (f : pfield) : Prop :=
  length (pf_types f) = length (pf_exps f) /\
  (forall e, In e (pf_exps f) -> (ndim <= length (ex_base (fe_exp e)))%nat) /\ (forall t, In t (pf_types f) -> (ndim <= length t)%nat).
(** Nektar++'s layout of the coefficients: the expansions' coefficients one after the other. *)
Definition consecutive (exps : list fexp) : Prop :=
  forall k e, nth_error exps k = Some e ->
    fe_off e = fold_right (fun e s => (snd (total_modes_s (ex_shape (fe_exp e)) (cell_P (fe_exp e))) + s)%nat) O (firstn k exps).
(** An affine function. *)
Definition affine (u0 u1 u2 u3 : R) (x : R * R * R) : R := let '(a, b, c) := x in u0 + u1 * a + u2 * b + u3 * c.
(** Coefficients of the affine function u of the reference position: its values at the vertices for the vertex modes, 0 for the
    others. *)
Definition corner (p q r : nat) : R * R * R := (2 * INR p - 1, 2 * INR q - 1, 2 * INR r - 1).
Definition vertex_dofs (s : shape) (P : nat) (u : R * R * R -> R) : list R :=
  match s with
  | Tri => map (fun '(p, q) => b2r (Nat.ltb (p + q) 2) * u (fst (corner p q 0), 0)) (idx2 P (fun p => (P - p)%nat))
  | Quad => map (fun '(q, p) => b2r (Nat.ltb p 2 && Nat.ltb q 2) * u (fst (corner p q 0), 0)) (idx2 P (fun _ => P))
  | Hex => map (fun '(r, q, p) => b2r (Nat.ltb p 2 && Nat.ltb q 2 && Nat.ltb r 2) * u (corner p q r)) (idx3 P (fun _ => P) (fun _ _ => P))
  | Pyr => map (fun '(p, q, r) => b2r (Nat.ltb p 2 && Nat.ltb q 2 && Nat.eqb r 0 || Nat.eqb p 0 && Nat.eqb q 0 && Nat.eqb r 1) * u (corner p q r))
             (idx3 P (fun _ => P) (fun p q => (P - Nat.max p q)%nat))
  | Prism => map (fun '(p, q, r) => b2r (Nat.ltb q 2 && Nat.ltb (p + r) 2) * u (corner p q r)) (idx3 P (fun _ => P) (fun p _ => (P - p)%nat))
  | Tet => map (fun '(p, q, r) => b2r (Nat.ltb (p + q + r) 2) * u (corner p q r)) (idx3 P (fun p => (P - p)%nat) (fun p q => (P - p - q)%nat))
  end.
(** The coefficients of element [e] in [coeffs]. *)
Definition dofs_of (e : fexp) (coeffs : list R) : list R :=
  firstn (snd (total_modes_s (ex_shape (fe_exp e)) (cell_P (fe_exp e)))) (skipn (fe_off e) coeffs).
