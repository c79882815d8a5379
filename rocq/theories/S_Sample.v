(** Specification vocabulary for C25-C28. *)
From Verif Require Import M_Sample.

(** [l] ends in a candidate containing the point. *)
Definition last_contains (cs : list candidate) : Prop :=
  exists before c, cs = before ++ [c] /\ cand_contains c = true.
Definition some_contains (cs : list candidate) : Prop := exists c, In c cs /\ cand_contains c = true.

(** Half-open box. *)
Definition in_half_open (bb : box) (x : list R) : Prop :=
  Forall2 (fun b v => fst b <= v < snd b) bb x.
(** The [j]-th point the random stream proposes for a bounding box. *)
Fixpoint proposal {S} (draw : R -> R -> S -> R * S) (bb : box) (j : nat) (s : S) : list R :=
  let '(x, s') := sample_new draw bb s in
  match j with O => x | Datatypes.S j' => proposal draw bb j' s' end.
Definition accepts (tol : R) (e : element) (x : list R) : Prop :=
  el_contains e x = true /\ Forall (fun l => -1 + tol < l < 1 - tol) (el_loc e x).

(** [k]-th of [N] evenly spaced points from [a] towards [b]. *)
Definition spaced (N : Z) (a b : list R) (k : Z) : list R :=
  map (fun '(x, y) => x + IZR k * ((y - x) / IZR N)) (combine a b).

Definition sumZ (l : list Z) : Z := fold_right Z.add 0%Z l.
Definition sumN (l : list nat) : nat := fold_right Nat.add 0%nat l.
(** Rank [r] owns the global indices [first r, first r + count r). *)
Definition first_index (counts : list Z) (r : nat) : Z := sumZ (firstn r counts).
Definition owns (counts : list Z) (r : nat) (v : Z) : Prop :=
  (first_index counts r <= v < first_index counts r + nth r counts 0)%Z.
(** The values drawn by the [j]-th collective call. *)
Definition draws (stream : nat -> Z) (nums : list nat) (j : nat) : list Z :=
  map stream (seq (sumN (firstn j nums)) (nth j nums 0%nat)).
Definition ownsb (counts : list Z) (r : nat) (v : Z) : bool :=
  Z.leb (first_index counts r) v && Z.ltb v (first_index counts r + nth r counts 0%Z).
