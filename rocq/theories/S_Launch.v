(** Specification for C97: concurrent executions of the items of a work-group. *)
From Coq Require Import List Arith.
Import ListNotations.

(** Item [i] has the program [prog i] (its writes in order). A point of a concurrent execution is the list of the writes
    done so far, each with the item that did it; item i has then done a prefix of its program. *)
Definition done_by {W} (i : nat) (trace : list (nat * W)) : list W :=
  map snd (filter (fun e => Nat.eqb (fst e) i) trace).
Definition execution {W} (prog : nat -> list W) (trace : list (nat * W)) : Prop :=
  forall i, exists rest, prog i = done_by i trace ++ rest.
(** Item i has finished its program. *)
Definition finished {W} (prog : nat -> list W) (trace : list (nat * W)) (i : nat) : Prop := done_by i trace = prog i.
