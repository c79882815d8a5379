(** The size messages of the exchanges of ParticleMeshInterface, on all ranks under every
    interleaving, with every exchange following the other on the same communicator and the same tag:
    include/nektar_interface/particle_mesh_interface.hpp 326-355 (counting, as in M_Rma) followed by
    360-390 (exchange_get_recv_ranks: num_recv_ranks receives from MPI_ANY_SOURCE with tag 45, one
    send with tag 45 per send rank, then MPI_Waitall). The constructor runs this two (2D, 653-668)
    or three (3D, 724-766) times, halo_extend again after it.
    A receive from any source may match any message addressed to the rank that is in flight, also
    one that belongs to another exchange: nothing in the message says which.
    Simplification: the packed data (tag 46 and 135), sent to and received from the ranks
    found here by name, is not part of this model (M_Exchange, M_Transport); sends are buffered
    (a send that waits for its receive is not held up: the receives are posted before the sends, 370-380). *)
From Verif Require Import M_Rma.

(** On top of the state of the counting protocol: the ranks each rank still has to send its size to,
    the number of receives still open, what the receives of each exchange matched (source, exchange
    of the sender), and the messages in flight (exchange, source, destination). *)
Record xstate := mkX
  { xs_g : gstate; xs_out : nat -> list nat; xs_in : nat -> nat;
    xs_got : nat -> nat -> list (nat * nat); xs_flight : list (nat * nat * nat) }.
Definition xinit : xstate := mkX ginit (fun _ => []) (fun _ => 0) (fun _ _ => []) [].
Section Rounds.
  Context (n : nat) (sends : nat -> nat -> list nat).
  (** One atomic action of rank [r]. A rank whose counter says round [k + 1], phase 0, has read its
      count of exchange [k]; it starts the next exchange (326) when its sends and receives are done. *)
  Inductive xstep (r : nat) (x : xstate) : xstate -> Prop :=
  | XProto g' : rs_phase (gs_rank (xs_g x) r) <> 5 ->
      (rs_phase (gs_rank (xs_g x) r) = 0 -> xs_out x r = [] /\ xs_in x r = 0) ->
      gstep n sends r (xs_g x) g' ->
      xstep r x (mkX g' (xs_out x) (xs_in x) (xs_got x) (xs_flight x))
  | XRead g' : rs_phase (gs_rank (xs_g x) r) = 5 -> gstep n sends r (xs_g x) g' ->
      xstep r x (mkX g' (upd_fun (xs_out x) r (sends (rs_round (gs_rank (xs_g x) r)) r))
                        (upd_fun (xs_in x) r (gs_win (xs_g x) r)) (xs_got x) (xs_flight x))
  | XSend t rest : xs_out x r = t :: rest ->
      xstep r x (mkX (xs_g x) (upd_fun (xs_out x) r rest) (xs_in x) (xs_got x)
                     (xs_flight x ++ [(rs_round (gs_rank (xs_g x) r) - 1, r, t)]))
  | XRecv k s m f1 f2 : xs_in x r = S m -> xs_flight x = f1 ++ (k, s, r) :: f2 ->
      xstep r x (mkX (xs_g x) (xs_out x) (upd_fun (xs_in x) r m)
                     (upd_fun (xs_got x) r (upd_fun (xs_got x r) (rs_round (gs_rank (xs_g x) r) - 1)
                        (xs_got x r (rs_round (gs_rank (xs_g x) r) - 1) ++ [(s, k)])))
                     (f1 ++ f2)).
  Inductive xreach : xstate -> Prop :=
  | XInit : xreach xinit
  | XStep x x' r : xreach x -> r < n -> xstep r x x' -> xreach x'.
  (** the same with the number of actions taken so far *)
  Inductive xrun : nat -> xstate -> Prop :=
  | RInit : xrun 0 xinit
  | RStep l x x' r : xrun l x -> r < n -> xstep r x x' -> xrun (S l) x'.
  (** rank [t] is past the Waitall of exchange [j] *)
  Definition received_all (x : xstate) (t j : nat) : Prop :=
    j + 1 < rs_round (gs_rank (xs_g x) t) \/ (rs_round (gs_rank (xs_g x) t) = j + 1 /\ xs_in x t = 0).
End Rounds.
