(** Exact-real base for the continuous parts of the model. [double] is modelled by [R];
    comparisons are Flocq's boolean comparisons; double-to-int conversion is [Ztrunc]. *)
From Coq Require Export Reals ZArith Lia Lra Psatz List Bool.
From Flocq Require Export Core.Raux.
Export ListNotations.
Open Scope R_scope.

(** std::numeric_limits<double>::max(), lowest() = -max(), min() (smallest positive normal). *)
Definition DBL_MAX : R := (2 - / (2 ^ 52)) * 2 ^ 1023.
Definition DBL_MIN : R := / (2 ^ 1022).

(** std::min(a,b) = (b < a) ? b : a;  std::max(a,b) = (a < b) ? b : a. *)
Definition fmin (a b : R) : R := if Rlt_bool b a then b else a.
Definition fmax (a b : R) : R := if Rlt_bool a b then b else a.

(** fmod(x, y) for y <> 0: x - trunc(x/y) * y. *)
Definition fmod (x y : R) : R := x - IZR (Ztrunc (x / y)) * y.

Definition nthR (l : list R) (i : nat) : R := nth i l 0.
Definition nthZ (l : list Z) (i : nat) : Z := nth i l 0%Z.
