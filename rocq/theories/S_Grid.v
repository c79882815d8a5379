(** Specification vocabulary for C18-C22, C56: points, boxes as sets of points. *)
From Verif Require Import M_RealBase.

Definition in_box (p : list R) (b : list (R * R)) : Prop :=
  Forall2 (fun x lu => fst lu <= x <= snd lu) p b.
Definition in_interior (p : list R) (b : list (R * R)) : Prop :=
  Forall2 (fun x lu => fst lu < x < snd lu) p b.
(** lower corner below upper corner in each dimension *)
Definition proper (b : list (R * R)) : Prop := Forall (fun lu => fst lu <= snd lu) b.
Definition solid (b : list (R * R)) : Prop := Forall (fun lu => fst lu < snd lu) b.
(** product over dimensions of the length of the intersection of the two intervals *)
Fixpoint overlap_volume (a b : list (R * R)) : R :=
  match a, b with
  | (la, ua) :: a', (lb, ub) :: b' => Rmax 0 (Rmin ua ub - Rmax la lb) * overlap_volume a' b'
  | _, _ => 1
  end.
(** a tuple of cell numbers, each within its count *)
Definition valid_tuple (t counts : list Z) : Prop := Forall2 (fun x c => 0 <= x < c)%Z t counts.
Fixpoint product (l : list Z) : Z := match l with [] => 1%Z | c :: r => (c * product r)%Z end.
(** [x] and [y] differ by a whole number of periods *)
Definition congruent (period x y : R) : Prop := exists n : Z, x = y + IZR n * period.
(** minimum / maximum of a set of values *)
Definition is_min (m : R) (l : list R) : Prop := In m l /\ Forall (fun x => m <= x) l.
Definition is_max (m : R) (l : list R) : Prop := In m l /\ Forall (fun x => x <= m) l.
