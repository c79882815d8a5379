(** Specification of the shape-level basis properties (C53, C54), over the types of M_Basis. *)
From Verif Require Export M_Basis S_Basis.
From Coq Require Export List.
Export ListNotations.

(** The specified values of a 1D basis. *)
Definition listb (b : btype) (P : nat) (z : R) : list R :=
  match b with ModA => listA P z | ModB => listB P z | ModC => listC P z | ModPyrC => listPyrC P z end.
(** The specified mode values of an element at a collapsed coordinate. *)
Definition smodes (s : shape) (P : nat) (e0 e1 e2 : R) : list R :=
  match s with
  | Tri => modes_tri P e0 e1 | Quad => modes_quad P e0 e1 | Hex => modes_hex P e0 e1 e2
  | Pyr => modes_pyr P e0 e1 e2 | Prism => modes_prism P e0 e1 e2 | Tet => modes_tet P e0 e1 e2 end.
(** Not at a collapsed vertex or edge of the element: no collapsed direction has coordinate 1. *)
Definition regular (s : shape) (eta : R * R * R) : Prop :=
  let '(e0, e1, e2) := eta in
  match s with Quad | Hex => True | Tri => e1 <> 1 | Pyr | Prism => e2 <> 1 | Tet => e1 <> 1 /\ e2 <> 1 end.
(** Number of modes of an expansion (first direction). *)
Definition cell_P (e : expansion) : nat := match ex_base e with [] => 0 | (nm, _) :: _ => nm end.
(** Finite sums over lists. *)
Definition Lsum {A} (f : A -> R) (l : list A) : R := fold_right (fun x s => f x + s) 0 l.
(** the mode values of the cell's expansion at a particle's reference position *)
Definition cmodes (c : pcell) (xi : R * R * R) : list R :=
  match collapse (pc_shape c) xi with None => [] | Some (e0, e1, e2) => smodes (pc_shape c) (pc_P c) e0 e1 e2 end.
(** quantity [v] times mode k - off, for the coefficients k of the cell; 0 for the others *)
Definition contrib (bs : list R) (off : nat) (v : R) (k : nat) : R :=
  if Nat.leb off k && Nat.ltb k (off + length bs) then v * nth (k - off) bs 0 else 0.
(** The reference implementation of a 1D basis (BasisReference::eval_modA and so on). *)
Definition reference (b : btype) (P : nat) (z : R) : list fl :=
  match b with ModA => eval_modA P z | ModB => eval_modB P z | ModC => eval_modC P z | ModPyrC => eval_modPyrC P z end.
(** closed forms for the number of modes, multiplied out *)
Definition closed_b (b : btype) (P N : nat) : Prop :=
  (match b with ModA => N = P | ModB => 2 * N = P * (P + 1) | ModC => 6 * N = P * (P + 1) * (P + 2) | ModPyrC => 6 * N = P * (P + 1) * (2 * P + 1) end)%nat.
Definition closed_s (s : shape) (P N : nat) : Prop :=
  (match s with Tri => 2 * N = P * (P + 1) | Quad => N = P * P | Hex => N = P * P * P
  | Pyr => 6 * N = P * (P + 1) * (2 * P + 1) | Prism => 2 * N = P * P * (P + 1) | Tet => 6 * N = P * (P + 1) * (P + 2) end)%nat.
(** [e] is one of the expansions the constructor was given, with at least two modes. *)
Definition handled (exps : list expansion) (st : ctor_st) (e : expansion) : Prop :=
  ctor_loop exps = Some st /\ In e exps /\ (2 <= cell_P e)%nat.
(** The cell handed to the kernels is one of the constructor's, its coefficients are in the vector and its particles are
    not at a collapsed vertex or edge. *)
Definition cell_of (exps : list expansion) (st : ctor_st) (ncoeff : nat) (c : pcell) : Prop :=
  (exists e, handled exps st e /\ ex_shape e = pc_shape c /\ cell_P e = pc_P c) /\
  (pc_off c + snd (total_modes_s (pc_shape c) (pc_P c)) <= ncoeff)%nat /\
  (forall xi v, In (xi, v) (pc_parts c) -> exists eta, collapse (pc_shape c) xi = Some eta /\ regular (pc_shape c) eta).
(** The coefficient vector a projection should give. *)
Definition projected (cells : list pcell) (k : nat) : R :=
  Lsum (fun c => Lsum (fun pv => contrib (cmodes c (fst pv)) (pc_off c) (snd pv) k) (pc_parts c)) cells.
