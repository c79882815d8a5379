(** Double precision versions of kernels whose other models work with exact real numbers:
    - NektarCartesianPeriodic (src/nektar_interface/particle_boundary_conditions.cpp 5-76),
    - rsequence / rsequence_within_extents (include/particle_utility/position_distribution.hpp
      51-117),
    - the atomic additions of a deposit (include/nektar_interface/expansion_looping, every shape,
      the line with fetch_add).
    Arithmetic is IEEE 754 binary64, round to nearest even, gradual underflow. A result whose
    rounded magnitude reaches 2^1024 would be an infinity: [None]. NaN never arises without an
    infinity or fmod by zero, which is [None] too. A conversion to an integer type that cannot hold
    the value is undefined behaviour: [None].
    The compiler may contract a multiplication followed by an addition into one fused operation
    (-ffp-contract): the argument [fused] selects this, and the theorems hold for both. *)
From Coq Require Import Reals ZArith List Bool.
From Flocq Require Import Core.
From Verif Require Import M_RealBase M_Grid.
Import ListNotations.
Open Scope R_scope.

(** binary64: 53 bit significand, least exponent -1074 *)
Definition dexp : Z -> Z := FLT_exp (-1074) 53.
Definition rnd (x : R) : R := round radix2 dexp ZnearestE x.
(** one arithmetic operation whose exact result is [x] *)
Definition fl (x : R) : option R :=
  let r := rnd x in if Rlt_bool (Rabs r) (bpow radix2 1024) then Some r else None.
(** conversion of a double to a signed integer of [bits] bits: truncation *)
Definition to_int (bits : Z) (x : R) : option Z :=
  let n := Ztrunc x in
  if (Z.leb (- 2 ^ (bits - 1)) n && Z.ltb n (2 ^ (bits - 1)))%bool then Some n else None.
(** [a * b + c] *)
Definition mul_add (fused : bool) (a b c : R) : option R :=
  if fused then fl (a * b + c) else do m <- fl (a * b); fl (m + c).
(** fmod: exact in IEEE arithmetic (no rounding) *)
Definition fmod_d (x y : R) : option R := if Req_bool y 0 then None else Some (fmod x y).

(** particle_boundary_conditions.cpp 35-42: the extent is the rounded difference of the least and
    greatest vertex coordinates *)
Definition extent_d (lo hi : R) : option R := fl (hi - lo).
(** 62-70, one dimension; INT is a 64 bit integer, its conversion back to double rounds *)
Definition periodic_d (fused : bool) (origin extent x : R) : option R :=
  do pos <- fl (x - origin);
  do a <- fl (Rabs pos + 2);
  do n <- to_int 64 a;
  do nd <- fl (IZR n);
  do t <- mul_add fused nd extent pos;
  do pos_fmod <- fmod_d t extent;
  fl (pos_fmod + origin).
(** 60-70, all dimensions *)
Fixpoint periodic_kernel_d (fused : bool) (dom : list (R * R)) (x : list R) : option (list R) :=
  match dom, x with
  | (o, e) :: dom', a :: x' =>
      do y <- periodic_d fused o e a; do ys <- periodic_kernel_d fused dom' x'; Some (y :: ys)
  | _, _ => Some x
  end.
(** 35-70: constructor and one call of execute for the particle at [x]; [box]: per dimension the
    least and greatest vertex coordinate over all ranks (MPI_Allreduce MIN / MAX, exact) *)
Definition periodic_execute_d (fused : bool) (box : list (R * R)) (x : list R) : option (list R) :=
  do dom <- mapM (fun lh => do e <- extent_d (fst lh) (snd lh); Some (fst lh, e)) box;
  periodic_kernel_d fused dom x.

(** position_distribution.hpp 66-69; [i] is an int, exactly converted *)
Definition rsequence_d (fused : bool) (i : Z) (irrational seed : R) : option R :=
  do t <- mul_add fused (IZR i) irrational seed; fmod_d t 1.
(** 51-55: decimal literals are rounded to the nearest double *)
Definition INVERSE_GOLDEN_RATIOS_d : list R :=
  map (fun n => rnd (IZR n / 10 ^ 16))
  [6180339887498948; 7548776662466927; 8191725133961644; 8566748838545029; 8812714616335696;
   8986537126286992; 9115923534820549; 9215993196339829; 9295701282320229; 9360691110777584]%Z.
(** 96-116 *)
Definition rsequence_within_extents_d (fused : bool) (N ndim : nat) (extents : list R) (seed : R)
  : option (list (list R)) :=
  mapM (fun dimx =>
    do igr <- nth_error INVERSE_GOLDEN_RATIOS_d dimx;
    do ex <- nth_error extents dimx;
    mapM (fun px => do s <- rsequence_d fused (Z.of_nat px) igr seed; fl (s * ex)) (seq 0 N))
    (seq 0 ndim).

(** One coefficient during a deposit: the value before ([0]: the buffer is zero filled), then the
    atomic additions in the order in which they happen. *)
Definition atomic_adds (c : R) (vs : list R) : option R :=
  fold_left (fun s v => do a <- s; fl (a + v)) vs (Some c).
(** function_basis_projection.hpp 227-254: the coefficients are zero filled, then every contribution
    (coefficient, value) is added atomically, in the order in which the additions happen; [None]: out of
    bounds or overflow. *)
Definition add_at_d (g : list R) (k : nat) (v : R) : option (list R) :=
  do x <- nth_error g k; do s <- fl (x + v); Some (firstn k g ++ [s] ++ skipn (S k) g).
Definition project_run_d (ncoeff : nat) (order : list (nat * R)) : option (list R) :=
  fold_left (fun g kv => do g <- g; add_at_d g (fst kv) (snd kv)) order (Some (repeat 0 ncoeff)).
