(** Specification for C94. *)
From Coq Require Import Reals.
From Verif Require Import M_FieldHelp.
From Coq Require Import List.
Import ListNotations.
Open Scope R_scope.

(** A list of values for all quadrature points, cut into one piece per element. *)
Fixpoint pieces {A} (exps : list expansion) (l : list A) : list (list A) :=
  match exps with
  | [] => []
  | e :: r => firstn (ex_npts e) l :: pieces r (skipn (ex_npts e) l)
  end.
Fixpoint total_points (exps : list expansion) : nat :=
  match exps with [] => 0%nat | e :: r => (ex_npts e + total_points r)%nat end.
(** Where the values of each element start, if the first starts at [o]. *)
Fixpoint starts (exps : list expansion) (o : nat) : list nat :=
  match exps with [] => [] | e :: r => o :: starts r (o + ex_npts e)%nat end.
(** The storage of a field: elements one after the other, one value per point. *)
Definition laid_out (fld : nfield) : Prop :=
  nf_off fld = starts (nf_exp fld) 0 /\ length (nf_coords fld) = total_points (nf_exp fld).

Definition point3 := (R * R * R)%type.
Definition samples (g : point3 -> R) (ps : list point3) : list R := map g ps.

(** The discretisation represents [g] exactly: [chi i] maps reference to physical coordinates
    in element [i]; the interpolant of the values of [g] at the points of an element is [g]. *)
Definition evaluates_exactly (fld : nfield) (chi : nat -> list R -> point3) (g : point3 -> R) : Prop :=
  forall i e ps xi, nth_error (nf_exp fld) i = Some e -> nth_error (pieces (nf_exp fld) (nf_coords fld)) i = Some ps ->
    ex_std e xi (samples g ps) = g (chi i xi).
(** ... and its derivative in direction [d] at the points is [dg]. *)
Definition differentiates_exactly (fld : nfield) (d : Z) (g dg : point3 -> R) : Prop :=
  forall i e ps, nth_error (nf_exp fld) i = Some e -> nth_error (pieces (nf_exp fld) (nf_coords fld)) i = Some ps ->
    ex_deriv e d (samples g ps) = samples dg ps.

(** The last expansion on a geometry. *)
Definition last_expansion_on (exps : list expansion) (gid : Z) (i : nat) : Prop :=
  (exists e, nth_error exps i = Some e /\ ex_gid e = gid) /\
  (forall j e, (i < j)%nat -> nth_error exps j = Some e -> ex_gid e <> gid).
