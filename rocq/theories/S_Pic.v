(** Independent specification for the particle-in-cell solver: vectors in R^3, the time-centred Lorentz force
    equation, Stormer-Verlet, energies as plain sums. Nothing here mentions the kernels. *)
From Verif Require Import M_Pic.

Definition dot3 (a b : v3) : R := let '(a1, a2, a3) := a in let '(b1, b2, b3) := b in a1 * b1 + a2 * b2 + a3 * b3.
(** The vector product, by the right hand rule on unit vectors (checked in L_Pic: orthogonal to both factors and
    e_x x e_y = e_z). *)
Definition cross3 (a b : v3) : v3 :=
  let '(a1, a2, a3) := a in let '(b1, b2, b3) := b in
  (a2 * b3 - a3 * b2, a3 * b1 - a1 * b3, a1 * b2 - a2 * b1).
Definition add3 (a b : v3) : v3 := let '(a1, a2, a3) := a in let '(b1, b2, b3) := b in (a1 + b1, a2 + b2, a3 + b3).
Definition sub3 (a b : v3) : v3 := let '(a1, a2, a3) := a in let '(b1, b2, b3) := b in (a1 - b1, a2 - b2, a3 - b3).
Definition scal3 (k : R) (a : v3) : v3 := let '(a1, a2, a3) := a in (k * a1, k * a2, k * a3).
Definition speed2 (v : v3) : R := dot3 v v.
Definition xy (v : v3) : v2 := let '(a, b, _) := v in (a, b).
Definition up (e : v2) : v3 := (fst e, snd e, 0).
Definition add2 (a b : v2) : v2 := (fst a + fst b, snd a + snd b).
Definition sub2 (a b : v2) : v2 := (fst a - fst b, snd a - snd b).
Definition scal2 (k : R) (a : v2) : v2 := (k * fst a, k * snd a).

(** Time-centred Lorentz force: m (V' - V) = dt q ( - coef grad phi + (V + V')/2 x B ). *)
Definition lorentz_step (dt : R) (B : v3) (coef m q : R) (gradphi : v2) (V V' : v3) : Prop :=
  scal3 m (sub3 V' V) = scal3 (dt * q) (add3 (scal3 (- coef) (up gradphi)) (cross3 (scal3 (1/2) (add3 V V')) B)).

(** [n] applications of a partial step. *)
Fixpoint steps {A} (n : nat) (f : A -> option A) (x : A) : option A :=
  match n with O => Some x | S k => match f x with Some y => steps k f y | None => None end end.

(** Acceleration of a particle at [x] in the potential gradient [g]. *)
Definition accel (coef m q : R) (g : v2 -> v2) (x : v2) : v2 := scal2 (- (coef * q / m)) (g x).

(** Positions equal up to the periods (Lx, Ly) of the domain. *)
Definition same_site (Lx Ly : R) (a b : v2) : Prop := exists i j : Z, fst a = fst b + IZR i * Lx /\ snd a = snd b + IZR j * Ly.

(** Sum of a quantity over all particles of all ranks. *)
Definition total (f : cpart -> R) (grp : list (list cpart)) : R := fold_right (fun p acc => f p + acc) 0 (concat grp).
Definition true_kinetic (p : cpart) : R := 1/2 * cp_M p * speed2 (cp_V p).
