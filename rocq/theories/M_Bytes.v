(** Byte level memory, outcomes and bounds-checked cursors shared by the
    geometry codecs.

    [byte]s are [Z] in [0,256).  C++ [int] is a 32 bit two's complement
    little-endian integer, [double] an opaque 64 bit pattern (the codecs only
    [memcpy] them, so nothing else about them matters). *)
From Coq Require Export List ZArith Lia Bool Arith.
Export ListNotations.
Open Scope Z_scope.

(** Result of running a piece of code: a value, a failed assertion
    (ASSERTL0 / NESOASSERT, which abort), or undefined behaviour (a read
    outside the memory that exists). *)
Inductive outcome (A : Type) : Type :=
| Ok (a : A)
| AssertFail
| UB.
Arguments Ok {A} _.
Arguments AssertFail {A}.
Arguments UB {A}.

Definition obind {A B} (x : outcome A) (f : A -> outcome B) : outcome B :=
  match x with Ok a => f a | AssertFail => AssertFail | UB => UB end.

(** Little-endian encoding of the low [n] bytes of [z]: what memcpy of an
    n-byte integer puts in memory on the supported (little-endian) hosts. *)
Fixpoint le_enc (n : nat) (z : Z) : list Z :=
  match n with
  | O => []
  | S n' => (z mod 256) :: le_enc n' (z / 256)
  end.

Fixpoint le_dec (l : list Z) : Z :=
  match l with
  | [] => 0
  | b :: r => b + 256 * le_dec r
  end.

Definition int32_range (z : Z) : Prop := - 2 ^ 31 <= z < 2 ^ 31.
Definition bits64_range (z : Z) : Prop := 0 <= z < 2 ^ 64.

(** [sizeof(int) = 4], [sizeof(double) = 8]. *)
Definition enc_int (z : Z) : list Z := le_enc 4 z.
Definition dec_int (l : list Z) : Z :=
  let u := le_dec l in if u <? 2 ^ 31 then u else u - 2 ^ 32.
Definition enc_dbl (z : Z) : list Z := le_enc 8 z.
Definition dec_dbl (l : list Z) : Z := le_dec l.

(** include/nektar_interface/geometry_transport/geometry_packing_utility.hpp
    16-22: struct PointStruct (two ints, three doubles: 32 bytes, no padding). *)
Record point := mkPoint
  { p_coordim : Z; p_vid : Z; p_x : Z; p_y : Z; p_z : Z }.

(** geometry_packing_utility.hpp 28-32: struct GeomPackSpec (three ints, 12 bytes). *)
Record gspec := mkGspec { gs_a : Z; gs_b : Z; gs_n : Z }.

Definition enc_point (p : point) : list Z :=
  enc_int (p_coordim p) ++ enc_int (p_vid p) ++
  enc_dbl (p_x p) ++ enc_dbl (p_y p) ++ enc_dbl (p_z p).

Definition dec_point (l : list Z) : point :=
  mkPoint (dec_int (firstn 4 l)) (dec_int (firstn 4 (skipn 4 l)))
          (dec_dbl (firstn 8 (skipn 8 l))) (dec_dbl (firstn 8 (skipn 16 l)))
          (dec_dbl (firstn 8 (skipn 24 l))).

Definition enc_gspec (g : gspec) : list Z :=
  enc_int (gs_a g) ++ enc_int (gs_b g) ++ enc_int (gs_n g).

Definition dec_gspec (l : list Z) : gspec :=
  mkGspec (dec_int (firstn 4 l)) (dec_int (firstn 4 (skipn 4 l)))
          (dec_int (firstn 4 (skipn 8 l))).

(** A reader consumes from an offset and yields a value and a new offset. *)
Definition reader (A : Type) := nat -> outcome (A * nat).

Definition rret {A} (a : A) : reader A := fun off => Ok (a, off).
Definition rbind {A B} (r : reader A) (f : A -> reader B) : reader B :=
  fun off => obind (r off) (fun x => f (fst x) (snd x)).
Definition rassert (b : bool) : reader unit :=
  fun off => if b then Ok (tt, off) else AssertFail.

Notation "x <- r ;; k" := (rbind r (fun x => k))
  (at level 61, r at next level, right associativity).

(** [for (i = 0; i < n; i++) push_back(r())]. *)
Fixpoint rrep {A} (n : nat) (r : reader A) : reader (list A) :=
  match n with
  | O => rret []
  | S n' => rbind r (fun a => rbind (rrep n' r) (fun l => rret (a :: l)))
  end.

(** Raw memory read of [n] bytes at [off] of the allocated bytes [mem]. *)
Definition mem_read (mem : list Z) (n : nat) : reader (list Z) :=
  fun off =>
    if Nat.leb (off + n) (length mem)
    then Ok (firstn n (skipn off mem), (off + n)%nat)
    else UB.
