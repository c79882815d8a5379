(** Specification for C63. *)
From Verif Require Export M_FieldProject S_Basis2.
From Coq Require Export Permutation List.
Export ListNotations.

(** sum over all particles of all cells *)
Definition psum (cells : list fcell) (f : fcell -> R * R * R -> pdata -> R) : R :=
  Lsum (fun c => Lsum (fun xd => f c (fst xd) (snd xd)) (fc_parts c)) cells.
(** value at reference position xi of cell c of the function with coefficients [coeffs] *)
Definition fvalue (coeffs : list R) (c : fcell) (xi : R * R * R) : R :=
  dot (skipn (fc_off c) coeffs) (cmodes (comp_cell 0 0 c) xi).
(** Local coefficients of the constant function 1: 1 on the vertex modes, 0 on the others. *)
Definition b2r (b : bool) : R := if b then 1 else 0.
Definition unit_dofs (s : shape) (P : nat) : list R :=
  match s with
  | Tri => map (fun '(p, q) => b2r (Nat.ltb (p + q) 2)) (idx2 P (fun p => (P - p)%nat))
  | Quad => map (fun '(q, p) => b2r (Nat.ltb p 2 && Nat.ltb q 2)) (idx2 P (fun _ => P))
  | Hex => map (fun '(r, q, p) => b2r (Nat.ltb p 2 && Nat.ltb q 2 && Nat.ltb r 2)) (idx3 P (fun _ => P) (fun _ _ => P))
  | Pyr => map (fun '(p, q, r) => b2r (Nat.ltb p 2 && Nat.ltb q 2 && Nat.eqb r 0 || Nat.eqb p 0 && Nat.eqb q 0 && Nat.eqb r 1))
             (idx3 P (fun _ => P) (fun p q => (P - Nat.max p q)%nat))
  | Prism => map (fun '(p, q, r) => b2r (Nat.ltb q 2 && Nat.ltb (p + r) 2)) (idx3 P (fun _ => P) (fun p _ => (P - p)%nat))
  | Tet => map (fun '(p, q, r) => b2r (Nat.ltb (p + q + r) 2)) (idx3 P (fun p => (P - p)%nat) (fun p q => (P - p - q)%nat))
  end.
(** [one] holds the coefficients of the constant function 1 on the cells. *)
Definition is_one (cells : list fcell) (one : list R) : Prop :=
  forall c, In c cells -> firstn (length (unit_dofs (fc_shape c) (fc_P c))) (skipn (fc_off c) one) = unit_dofs (fc_shape c) (fc_P c).
(** [form u x]: integral of the product of the functions with coefficients u and x. The inverse mass matrix solves the
    variational problem on the test space V. *)
Definition solves_mass (V : list R -> Prop) (form : list R -> list R -> R) (n : nat) (im : list R -> list fl) : Prop :=
  forall b, length b = n -> exists x, im b = map Some x /\ length x = n /\ forall u, V u -> form u x = dot u b.
(** the cells handed to the projection *)
Definition fcell_of (exps : list expansion) (st : ctor_st) (ncoeff : nat) (c : fcell) : Prop := cell_of exps st ncoeff (comp_cell 0 0 c).
(** An order of execution of the atomic adds is a rearrangement of them. *)
Definition schedule (sched : nat -> list (nat * fl) -> list (nat * fl)) : Prop := forall i l, Permutation (sched i l) l.

(** every particle has [ncomp s] components of dat s: the particles are of the group the object was made with *)
Definition same_group (ncomp : nat -> nat) (cells : list fcell) : Prop :=
  forall c xi d s, In c cells -> In (xi, d) (fc_parts c) -> length (d s) = ncomp s.
(** the arguments project expects: one dat and one component in range per field *)
Definition valid_args (nfields : nat) (ncomp : nat -> nat) (syms : list nat) (comps : list Z) : Prop :=
  length syms = nfields /\ length comps = nfields /\
  forall i s c, nth_error syms i = Some s -> nth_error comps i = Some c -> (0 <= c < Z.of_nat (ncomp s))%Z.
