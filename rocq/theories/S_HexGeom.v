(** The reference hexahedron of Nektar++ as drawn in the comment of utility_mesh.hpp: corners, edges and faces, by their
    coordinates, and evenly spaced points between corners. No definition of the model is used. *)
From Coq Require Import Reals List.
Import ListNotations.
Open Scope R_scope.

Definition memb (k : nat) (l : list nat) : bool := existsb (Nat.eqb k) l.
Definition pm (b : bool) : R := if b then 1 else -1.
(** corner k of the cube [-1,1]^3: 0 1 2 3 go round the bottom, 4 5 6 7 lie above them *)
Definition corner (k : nat) : R * R * R :=
  (pm (memb k [1; 2; 5; 6]%nat), pm (memb k [2; 3; 6; 7]%nat), pm (memb k [4; 5; 6; 7]%nat)).
Definition within (t : R) : Prop := -1 <= t <= 1.
(** edge k: 0..3 bottom (front, right, back, left), 4..7 upright, 8..11 top *)
Definition ref_edge (k : nat) (p : R * R * R) : Prop :=
  let '(x, y, z) := p in
  match k with
  | 0%nat => within x /\ y = -1 /\ z = -1 | 1%nat => x = 1 /\ within y /\ z = -1
  | 2%nat => within x /\ y = 1 /\ z = -1 | 3%nat => x = -1 /\ within y /\ z = -1
  | 4%nat => x = -1 /\ y = -1 /\ within z | 5%nat => x = 1 /\ y = -1 /\ within z
  | 6%nat => x = 1 /\ y = 1 /\ within z | 7%nat => x = -1 /\ y = 1 /\ within z
  | 8%nat => within x /\ y = -1 /\ z = 1 | 9%nat => x = 1 /\ within y /\ z = 1
  | 10%nat => within x /\ y = 1 /\ z = 1 | 11%nat => x = -1 /\ within y /\ z = 1
  | _ => False
  end.
(** face k: 0 bottom, 1 front, 2 right, 3 back, 4 left, 5 top *)
Definition ref_face (k : nat) (p : R * R * R) : Prop :=
  let '(x, y, z) := p in
  match k with
  | 0%nat => within x /\ within y /\ z = -1 | 1%nat => within x /\ y = -1 /\ within z
  | 2%nat => x = 1 /\ within y /\ within z | 3%nat => within x /\ y = 1 /\ within z
  | 4%nat => x = -1 /\ within y /\ within z | 5%nat => within x /\ within y /\ z = 1
  | _ => False
  end.
(** the point a fraction [s] of the way from [a] to [b] and a fraction [t] of the way from [a] to [d] *)
Definition along (s t : R) (a b d : R * R * R) : R * R * R :=
  let '(ax, ay, az) := a in let '(bx, by_, bz) := b in let '(dx, dy, dz) := d in
  (ax + s * (bx - ax) + t * (dx - ax), ay + s * (by_ - ay) + t * (dy - ay), az + s * (bz - az) + t * (dz - az)).
(** the i-th of n evenly spaced fractions from 0 to 1 *)
Definition frac (n i : nat) : R := INR i / INR (n - 1).
(** the four corners of the faces, going round from the corner with the smallest number *)
Definition face_corners (k : nat) : list nat :=
  nth k [[0; 1; 2; 3]; [0; 1; 5; 4]; [1; 2; 6; 5]; [2; 3; 7; 6]; [0; 3; 7; 4]; [4; 5; 6; 7]]%nat [].
