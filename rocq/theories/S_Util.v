(** Specification vocabulary for C13-C17. *)
From Verif Require Import M_Util.

(** The individual writes of a history, oldest first. *)
Definition writes {I R} (ops : list (psop I R)) : list (string * pvalue I R) :=
  flat_map (fun o => match o with
    | OSetInt k v => [(k, VInt v)]
    | OSetReal k v => [(k, VReal v)]
    | OAddInts l => map (fun kv => (fst kv, VInt (snd kv))) l
    | OAddReals l => map (fun kv => (fst kv, VReal (snd kv))) l
    end) ops.
(** [v] is the most recent write to [k]. *)
Definition last_write {V} (w : list (string * V)) (k : string) (v : V) : Prop :=
  exists before after, w = before ++ (k, v) :: after /\ ~ In k (map fst after).

(** Callbacks registered for an event, in registration order. *)
Definition registered_pre {S} (ops : list (cbop S)) : list (S -> S) :=
  flat_map (fun o => match o with RegPre f => [f] | _ => [] end) ops.
Definition registered_post {S} (ops : list (cbop S)) : list (S -> S) :=
  flat_map (fun o => match o with RegPost f => [f] | _ => [] end) ops.

(** [m] is the least multiple of [L] not below [N]. *)
Definition least_multiple_above (L N m : Z) : Prop :=
  (exists q, m = q * L)%Z /\ (N <= m)%Z /\ (forall q, N <= q * L -> m <= q * L)%Z.
