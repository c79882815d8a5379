(** Specification for the Boris push in double precision. The exact push is the solution of the time-centred Lorentz force equation
    (lorentz_step, S_Pic). *)
From Coq Require Import Reals.
From Verif Require Import M_Pic S_Double S_Pic.
Open Scope R_scope.

(** a double that is zero or of a magnitude between 2^-200 and 2^200 *)
Definition ordinary (x : R) : Prop := is_double x /\ (x = 0 \/ / 2 ^ 200 <= Rabs x <= 2 ^ 200).
Definition all3 (P : R -> Prop) (v : v3) : Prop := let '(a, b, c) := v in P a /\ P b /\ P c.
Definition both2 (P : R -> Prop) (v : v2) : Prop := P (fst v) /\ P (snd v).
(** [scale]: at least every velocity component and every component of the change of velocity that the electric field causes in half a step;
    the magnetic field turns the velocity by at most a right angle or so per step (the tangent of half the angle, |q B dt / 2 m|, is at most 1
    per component). *)
Record push_ok (dt : R) (B : v3) (coef : R) (p : cpart) (scale : R) : Prop := {
  po_ordinary : ordinary dt /\ all3 ordinary B /\ ordinary coef /\ ordinary (cp_Q p) /\ ordinary (cp_M p) /\ cp_M p <> 0;
  po_velocity : all3 is_double (cp_V p) /\ all3 (fun v => Rabs v <= scale) (cp_V p);
  po_field : both2 ordinary (cp_E p) /\ both2 (fun e => Rabs (cp_Q p / cp_M p * (dt / 2) * (e * coef)) <= scale) (cp_E p);
  po_turn : all3 (fun b => Rabs (b * (cp_Q p / cp_M p * (dt / 2))) <= 1) B;
  po_position : both2 (fun x => is_double x /\ Rabs x <= 2 ^ 400) (cp_P p);
  po_scale : / 2 ^ 300 <= scale <= 2 ^ 300
}.
(** every component within [e] *)
Definition near3 (e : R) (a b : v3) : Prop := all3 (fun d => Rabs d <= e) (sub3 a b).
