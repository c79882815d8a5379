(** What a double is and what rounding to nearest means, independently of the model. *)
From Coq Require Import Reals ZArith List.
From Coq Require Import Lra.
Open Scope R_scope.

(** a finite IEEE 754 binary64 number: m * 2^e with |m| < 2^53, -1074 <= e, below 2^1024 *)
Definition is_double (x : R) : Prop :=
  (exists (m : Z) (k : nat), (Z.abs m < 2 ^ 53)%Z /\ (x = IZR m * 2 ^ k \/ (k <= 1074)%nat /\ x = IZR m / 2 ^ k))
  /\ Rabs x < 2 ^ 1024.
(** unit roundoff 2^-53 *)
Definition unit_roundoff : R := / 2 ^ 53.
(** no double is nearer to [x] than [r] *)
Definition nearest_double (x r : R) : Prop :=
  is_double r /\ forall y, is_double y -> Rabs (r - x) <= Rabs (y - x).

(** One dimension of a periodic domain [lo, hi] and a coordinate [a]: everything is a double, of a
    magnitude that leaves room for the intermediate results; either the domain is at least one unit
    long or the particle is at most two lengths below it. *)
Definition wrappable (lh : R * R) (a : R) : Prop :=
  is_double (fst lh) /\ is_double (snd lh) /\ is_double a /\ fst lh < snd lh /\
  Rabs (fst lh) <= 2 ^ 899 /\ Rabs (snd lh) <= 2 ^ 899 /\ Rabs (a - fst lh) <= 2 ^ 62 /\
  (1 <= snd lh - fst lh \/ fst lh - 2 * (snd lh - fst lh) <= a).
(** 2^-48 relative to the magnitudes that occur *)
Definition wrap_tolerance (lh : R * R) (a : R) : R :=
  32 * unit_roundoff * ((Rabs (a - fst lh) + 1) * (snd lh - fst lh + 1) + Rabs (fst lh)).
(** [b] is the image of [a]: in the closed domain, and a whole number of periods away up to
    rounding; a coordinate that is not within rounding of an end of the domain stays where it is up to
    rounding *)
Definition wrapped (lh : R * R) (a b : R) : Prop :=
  is_double b /\ fst lh <= b <= snd lh /\
  (exists k : Z, Rabs (b - (a + IZR k * (snd lh - fst lh))) <= wrap_tolerance lh a) /\
  (fst lh + wrap_tolerance lh a < a < snd lh - wrap_tolerance lh a -> Rabs (b - a) <= wrap_tolerance lh a).

(** * The R-sequence *)
(** [s] is sample [i] of a dimension with extent [ex] and generator [g] (the decimal constant): a
    double in [0, ex), within rounding of the i-th number of the additive recurrence modulo 1. *)
Definition good_sample (g ex seed : R) (i : nat) (s : R) : Prop :=
  is_double s /\ 0 <= s < ex /\
  exists k : Z, Rabs (s - ex * (INR i * g + seed - IZR k)) <= 8 * unit_roundoff * (INR i + seed + 1) * ex.
(** * Deposits *)
(** the contributions to coefficient [i] *)
Definition contributions (i : nat) (adds : list (nat * R)) : list R :=
  map snd (filter (fun kv => Nat.eqb (fst kv) i) adds).
Definition total (l : list R) : R := fold_right Rplus 0 l.
Definition magnitude (l : list R) : R := total (map Rabs l).
(** accumulated rounding of as many additions as there are contributions *)
Definition sum_tolerance (l : list R) : R := ((1 + unit_roundoff) ^ length l - 1) * magnitude l.
