(** Specification for C105: when a mesh dimension is within the range of double precision, and how far a particle has to be
    from the faces of an element's bounding box. *)
From Coq Require Import Reals ZArith List.
From Verif Require Export S_Double.
Open Scope R_scope.

(** the interval [lo, hi] of all elements, divided in [n] cells *)
Definition dim_ok (lu : R * R) (n : Z) : Prop :=
  is_double (fst lu) /\ is_double (snd lu) /\ fst lu < snd lu /\
  Rabs (fst lu) <= 2 ^ 24 /\ Rabs (snd lu) <= 2 ^ 24 /\ / 2 ^ 200 <= snd lu - fst lu /\
  (0 < n <= 2 ^ 29)%Z /\
  (* the cells are at least 2^10 roundings wide *)
  2 ^ 10 * unit_roundoff * (snd lu - fst lu + Rabs (fst lu)) * IZR n <= snd lu - fst lu.
(** sixteen roundings of the coordinates *)
Definition slack (lu : R * R) : R := 16 * unit_roundoff * (snd lu - fst lu + Rabs (fst lu)).
(** an element's bounding box [gl, gu] inside the interval of all elements *)
Definition inside_hull (lu g : R * R) : Prop :=
  is_double (fst g) /\ is_double (snd g) /\ fst lu <= fst g /\ fst g <= snd g /\ snd g <= snd lu.
Definition well_inside (lu g : R * R) (x : R) : Prop :=
  is_double x /\ fst g + slack lu <= x <= snd g - slack lu.
