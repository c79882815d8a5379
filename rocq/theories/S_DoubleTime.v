(** Specification for C107: sub-stepping in double precision. *)
From Coq Require Import Reals ZArith List.
From Verif Require Export S_Double.
Open Scope R_scope.

(** A fluid step of length T from time t, divided in k particle steps: doubles far from the ends of the range, and steps that are
    long compared with the rounding of the time. *)
Definition step_ok (t T : R) (k : Z) : Prop :=
  is_double t /\ is_double T /\ 0 <= t /\ / 2 ^ 500 <= T /\ t + T <= 2 ^ 500 /\ (1 <= k <= 2 ^ 20)%Z /\
  8 * IZR k * IZR k * unit_roundoff * (t + T) <= T.
(** The substeps taken instead of k steps of length T / k: k or k+1 of them, all but the last two the same length, all positive and at
    most that length; an extra one is no longer than a few roundings of the time. Together they last T up to rounding. *)
Definition substeps (t T dt : R) (k : Z) (ds : list R) : Prop :=
  (exists d rest, ds = (repeat dt (Z.to_nat k - 1) ++ d :: rest)%list /\ 0 < d <= dt /\
     (rest = nil \/ exists e, rest = (e :: nil)%list /\ 0 < e <= dt /\ e <= 4 * IZR k * unit_roundoff * (t + T))) /\
  Rabs (total ds - T) <= 6 * IZR k * unit_roundoff * (t + T).
