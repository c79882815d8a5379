(** Specification vocabulary for C29-C31. *)
From Verif Require Import M_MeshIf S_Grid.

(** A grid of cubic cells of width [w] from [origin]: the cell numbered [t] *)
Fixpoint grid_cell (origin : list R) (w : R) (t : list Z) : list (R * R) :=
  match origin, t with
  | o :: os, c :: ts => (o + IZR c * w, o + (IZR c + 1) * w) :: grid_cell os w ts
  | _, _ => []
  end.
(** The whole grid with [counts] cells per dimension *)
Fixpoint grid_extent (origin : list R) (w : R) (counts : list Z) : list (R * R) :=
  match origin, counts with
  | o :: os, c :: cs => (o, o + IZR c * w) :: grid_extent os w cs
  | _, _ => []
  end.
(** cell inside cell: coarse cell [c], subcell [f] out of [n] per dimension *)
Fixpoint subcell (n : Z) (c f : list Z) : list Z :=
  match c, f with x :: cs, y :: fs => (x * n + y)%Z :: subcell n cs fs | _, _ => [] end.
Fixpoint box_volume (b : list (R * R)) : R :=
  match b with [] => 1 | lu :: r => (snd lu - fst lu) * box_volume r end.
Definition box_inside (a b : list (R * R)) : Prop :=
  Forall2 (fun x y => fst y <= fst x /\ snd x <= snd y) a b.
Fixpoint sumR (l : list R) : R := match l with [] => 0 | x :: r => x + sumR r end.
(** grow a box by [p] times its longest side in every direction *)
Definition longest_side (b : list (R * R)) (s : R) : Prop := is_max s (map (fun lu => snd lu - fst lu) b).
Definition grow (s : R) (b : list (R * R)) : list (R * R) := map (fun lu => (fst lu - s, snd lu + s)) b.
(** largest weight claimed for a cell by a history of (cell, weight, value) claims *)
Definition claimed (h : list (Z * Z * R)) (cell w : Z) : Prop := exists f, In (cell, w, f) h.
(** A mesh hierarchy as its constructor leaves it: at least one coarse cell per dimension, at
    least one fine cell per coarse cell, positive width. *)
Definition mh_ok (m : mhier) : Prop :=
  length (mh_origin m) = length (mh_dims m) /\ Forall (fun d => 0 < d)%Z (mh_dims m) /\
  (0 < mh_nf m)%Z /\ 0 < mh_cwc m.
(** fine cells per dimension *)
Definition fine_counts (m : mhier) : list Z := map (fun d => (mh_nf m * d)%Z) (mh_dims m).
(** the fine cell with number [g] is the box [c] *)
Definition fine_cell (m : mhier) (g : Z) (c : list (R * R)) : Prop :=
  exists coarse fine, valid_tuple coarse (mh_dims m) /\ valid_tuple fine (repeat (mh_nf m) (mh_ndim m)) /\
    g = mh_linear m (coarse ++ fine) /\
    c = grid_cell (mh_origin m) (mh_cw m) (subcell (mh_nf m) coarse fine).
