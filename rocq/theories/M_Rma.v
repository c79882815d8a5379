(** The counting protocol of ParticleMeshInterface: exchange_init_send_counts (326-332) and
    exchange_finalise_send_counts (337-355) of
    include/nektar_interface/particle_mesh_interface.hpp, run on all ranks under every
    interleaving of the ranks and any number of times in a row (the interface runs it once per
    geometry type, on the same window). *)
From Coq Require Export Arith Lia List.
Export ListNotations.

(** Where a rank is within a round:
    0 before [recv_win_data[0] = 0] (328); 1 before MPI_Ibarrier (330); 2 inside the barrier, before
    MPI_Wait (341); 3 in the loop of MPI_Get_accumulate (345-350); 4 inside MPI_Barrier (352);
    5 behind it, before the read (353). *)
Record rstate := mkRS { rs_round : nat; rs_phase : nat; rs_rest : list nat; rs_reads : list nat }.
Record gstate := mkGS { gs_rank : nat -> rstate; gs_win : nat -> nat }.
Definition upd_fun {A} (f : nat -> A) (k : nat) (v : A) : nat -> A := fun x => if Nat.eqb x k then v else f x.
Definition ginit : gstate := mkGS (fun _ => mkRS 0 0 [] []) (fun _ => 0).
(** rank [q] has entered the [p]-th synchronisation point of round [k] *)
Definition reached (s : rstate) (k p : nat) : Prop := k < rs_round s \/ (rs_round s = k /\ p <= rs_phase s).

Section Protocol.
  (** number of ranks, and the ranks each rank sends to in each round *)
  Context (n : nat) (sends : nat -> nat -> list nat).
  (** One atomic action of rank [r]. MPI's guarantees used: a barrier is left only after every
      rank has entered it; MPI_Get_accumulate with MPI_SUM is an atomic addition that is
      complete at MPI_Win_unlock. *)
  Inductive gstep (r : nat) (g : gstate) : gstate -> Prop :=
  | SZero : rs_phase (gs_rank g r) = 0 ->
      gstep r g (mkGS (upd_fun (gs_rank g) r (mkRS (rs_round (gs_rank g r)) 1 (rs_rest (gs_rank g r)) (rs_reads (gs_rank g r))))
                      (upd_fun (gs_win g) r 0))
  | SEnter : rs_phase (gs_rank g r) = 1 ->
      gstep r g (mkGS (upd_fun (gs_rank g) r (mkRS (rs_round (gs_rank g r)) 2 (rs_rest (gs_rank g r)) (rs_reads (gs_rank g r)))) (gs_win g))
  | SWait : rs_phase (gs_rank g r) = 2 ->
      (forall q, q < n -> reached (gs_rank g q) (rs_round (gs_rank g r)) 2) ->
      gstep r g (mkGS (upd_fun (gs_rank g) r (mkRS (rs_round (gs_rank g r)) 3 (sends (rs_round (gs_rank g r)) r) (rs_reads (gs_rank g r)))) (gs_win g))
  | SAcc t rest : rs_phase (gs_rank g r) = 3 -> rs_rest (gs_rank g r) = t :: rest ->
      gstep r g (mkGS (upd_fun (gs_rank g) r (mkRS (rs_round (gs_rank g r)) 3 rest (rs_reads (gs_rank g r))))
                      (upd_fun (gs_win g) t (gs_win g t + 1)))
  | SBarrier : rs_phase (gs_rank g r) = 3 -> rs_rest (gs_rank g r) = [] ->
      gstep r g (mkGS (upd_fun (gs_rank g) r (mkRS (rs_round (gs_rank g r)) 4 [] (rs_reads (gs_rank g r)))) (gs_win g))
  | SLeave : rs_phase (gs_rank g r) = 4 ->
      (forall q, q < n -> reached (gs_rank g q) (rs_round (gs_rank g r)) 4) ->
      gstep r g (mkGS (upd_fun (gs_rank g) r (mkRS (rs_round (gs_rank g r)) 5 (rs_rest (gs_rank g r)) (rs_reads (gs_rank g r)))) (gs_win g))
  | SRead : rs_phase (gs_rank g r) = 5 ->
      gstep r g (mkGS (upd_fun (gs_rank g) r (mkRS (S (rs_round (gs_rank g r))) 0 [] (rs_reads (gs_rank g r) ++ [gs_win g r]))) (gs_win g)).
  Inductive greach : gstate -> Prop :=
  | GInit : greach ginit
  | GStep g g' r : greach g -> r < n -> gstep r g g' -> greach g'.
End Protocol.
