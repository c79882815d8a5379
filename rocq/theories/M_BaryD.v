(** Double precision version of include/nektar_interface/bary_interpolation/bary_evaluation.hpp (exact version, with the addressing of the
    buffers: M_Bary). Arrays are indexed by their logical index; an entry that is not finite is [None]. Every operation is rounded as written;
    the product that is added to an accumulator may be contracted with the addition (the flags [f], one for each iteration). *)
From Coq Require Import Reals ZArith List Bool.
From Flocq Require Import Core.
From Verif Require Import M_RealBase M_Grid M_Double M_BorisD.
Import ListNotations.
Open Scope R_scope.

(** for (int i = 0; i < n; i++) accumulator = body i accumulator *)
Fixpoint for_d (n : nat) (body : nat -> R -> option R) (s : R) : option R :=
  match n with O => Some s | S k => do s' <- for_d k body s; body k s' end.
Definition darray := nat -> option R.

(** xdiff == 0.0, lines 32-33 *)
Definition on_node_d (z : nat -> R) (coord : R) (ix : nat) : bool :=
  match fl (z ix - coord) with Some d => Req_bool d 0 | None => false end.
(** bw_over_diff, lines 40-41 *)
Definition bw_over_diff_d (z bw : nat -> R) (coord : R) (ix : nat) : option R := do xdiff <- fl (z ix - coord); div_d (bw ix) xdiff.
(** preprocess_weights 24-49 *)
Definition preprocess_weights_d (n : nat) (coord : R) (z bw : nat -> R) : darray :=
  match find (on_node_d z coord) (seq 0 n) with
  | Some k => fun ix => Some (if Nat.eqb ix k then 1 else 0)
  | None => fun ix =>
      do denom <- for_d n (fun i s => do t <- bw_over_diff_d z bw coord i; fl (s + t)) 0;
      do factor <- div_d 1 denom; do t <- bw_over_diff_d z bw coord ix; fl (t * factor)
  end.
(** preprocess_weights_block 65-114, one lane; the denominator of a lane on a node is not used *)
Definition preprocess_lane_d (n : nat) (coord : R) (z bw : nat -> R) : darray :=
  if existsb (on_node_d z coord) (seq 0 n) then fun ix => fl ((if on_node_d z coord ix then 1 else 0) * 1)
  else fun ix =>
      do denom <- for_d n (fun i s => do t <- bw_over_diff_d z bw coord i; fl (s + t)) 0;
      do factor <- div_d 1 denom; do t <- bw_over_diff_d z bw coord ix; fl (t * factor).

(** compute_dir_0 125-136 *)
Definition dir_0_d (f : nat -> bool) (n : nat) (phys : nat -> R) (div : darray) : option R :=
  for_d n (fun ix s => do w <- div ix; mul_add (f ix) w (phys ix) s) 0.
(** compute_dir_10 149-162: (phys * div0) * c1 *)
Definition dir_10_d (f : nat -> nat -> bool) (n0 n1 : nat) (phys : nat -> nat -> R) (div0 div1 : darray) : option R :=
  for_d n1 (fun i1 s => do c1 <- div1 i1;
    for_d n0 (fun i0 s => do w <- div0 i0; do p <- fl (phys i0 i1 * w); mul_add (f i0 i1) p c1 s) s) 0.
(** compute_dir_10_interlaced 179-203 and 222-240, one function: phys * (div0 * c1) *)
Definition dir_10_interlaced_d (f : nat -> nat -> bool) (n0 n1 : nat) (phys : nat -> nat -> R) (div0 div1 : darray) : option R :=
  for_d n1 (fun i1 s => do c1 <- div1 i1;
    for_d n0 (fun i0 s => do w <- div0 i0; do c <- fl (w * c1); mul_add (f i0 i1) (phys i0 i1) c s) s) 0.
(** compute_dir_210 255-275: (phys * div0) * (c2 * div1) *)
Definition dir_210_d (f : nat -> nat -> nat -> bool) (n0 n1 n2 : nat) (phys : nat -> nat -> nat -> R) (div0 div1 div2 : darray) : option R :=
  for_d n2 (fun i2 s => do c2 <- div2 i2;
    for_d n1 (fun i1 s => do w1 <- div1 i1; do c1 <- fl (c2 * w1);
      for_d n0 (fun i0 s => do w <- div0 i0; do p <- fl (phys i0 i1 i2 * w); mul_add (f i0 i1 i2) p c1 s) s) s) 0.
(** compute_dir_210_interlaced 296-323 and 345-371, and the block version 392-438 for one lane, one function: phys * (div0 * (c2 * div1)) *)
Definition dir_210_interlaced_d (f : nat -> nat -> nat -> bool) (n0 n1 n2 : nat) (phys : nat -> nat -> nat -> R) (div0 div1 div2 : darray) : option R :=
  for_d n2 (fun i2 s => do c2 <- div2 i2;
    for_d n1 (fun i1 s => do w1 <- div1 i1; do c1 <- fl (c2 * w1);
      for_d n0 (fun i0 s => do w <- div0 i0; do c <- fl (w * c1); mul_add (f i0 i1 i2) (phys i0 i1 i2) c s) s) s) 0.
(** evaluate_2d 459-476, evaluate_3d 501-521 *)
Definition evaluate_2d_d (f : nat -> nat -> bool) (coord0 coord1 : R) (n0 n1 : nat) (phys : nat -> nat -> R) (z0 z1 bw0 bw1 : nat -> R) : option R :=
  dir_10_d f n0 n1 phys (preprocess_weights_d n0 coord0 z0 bw0) (preprocess_weights_d n1 coord1 z1 bw1).
Definition evaluate_3d_d (f : nat -> nat -> nat -> bool) (coord0 coord1 coord2 : R) (n0 n1 n2 : nat) (phys : nat -> nat -> nat -> R)
    (z0 z1 z2 bw0 bw1 bw2 : nat -> R) : option R :=
  dir_210_d f n0 n1 n2 phys (preprocess_weights_d n0 coord0 z0 bw0) (preprocess_weights_d n1 coord1 z1 bw1) (preprocess_weights_d n2 coord2 z2 bw2).
