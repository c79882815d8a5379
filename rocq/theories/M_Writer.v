(** Model of the HDF5 writer used by the diagnostics: include/io/generic_hdf5_writer.hpp (whole file).
    A group is its list of (key, value), in the order of creation; the groups of the steps are named by
    std::to_string(step), which is injective: here the number itself. HDF5's own behaviour (from its manual):
    creating an object whose name exists in the group, or any call with an invalid identifier, returns a
    negative value and changes nothing; an identifier is invalid once closed. *)
From Coq Require Export ZArith String List Bool Lia.
Export ListNotations.
Open Scope Z_scope.

Section Writer.
  Context {V : Type}.
  Notation group := (list (string * V)).
  (** the member group_step: no initialiser (14, 57); an invalid identifier; an open group *)
  Inductive handle := HUnset | HInvalid | HOpen (step : Z).
  Record writer := mkW { w_open : bool; w_step : Z; w_cur : handle; w_global : group; w_steps : list (Z * group) }.
  (** What a call does: completes; stops the program; undefined behaviour. *)
  Inductive wres := WOk (w : writer) | WAbort | WUB.
  Definition wbind (r : wres) (f : writer -> wres) : wres := match r with WOk w => f w | e => e end.

  (** ghw_H5CHK 17-19: the status is converted to bool by the call, false is 0 and true is 1. *)
  Definition as_bool (status : Z) : Z := if Z.eqb status 0 then 0 else 1.
  Definition h5chk (status : Z) (w : writer) : wres := if Z.leb 0 (as_bool status) then WOk w else WAbort.

  Definition has (k : string) (g : group) : bool := existsb (fun e => String.eqb (fst e) k) g.
  (** Constructor 56-68; H5Fcreate with H5F_ACC_TRUNC: [created] is whether the file could be created. *)
  Definition w_new (created : bool) : wres := if created then WOk (mkW true (-1) HUnset [] []) else WAbort.
  (** write_group 46-52 with write_dataspace 21-45: the status of H5Dcreate2 is not looked at; H5Dwrite and H5Dclose on
      the identifier it returned (negative if it failed) are checked with ghw_H5CHK. *)
  Definition put (k : string) (v : V) (g : group) : group * Z := if has k g then (g, -1) else (g ++ [(k, v)], 0).
  (** write_value_global 70-72 *)
  Definition write_global (k : string) (v : V) (w : writer) : wres :=
    let '(g, status) := if w_open w then put k v (w_global w) else (w_global w, -1) in
    h5chk status (mkW (w_open w) (w_step w) (w_cur w) g (w_steps w)).
  (** write_value_step 73-75 *)
  Definition write_step (k : string) (v : V) (w : writer) : wres :=
    match w_cur w with
    | HUnset => WUB
    | HInvalid => h5chk (-1) w
    | HOpen s =>
        let g := match find (fun e => Z.eqb (fst e) s) (w_steps w) with Some e => snd e | None => [] end in
        let '(g', status) := put k v g in
        h5chk status (mkW (w_open w) (w_step w) (w_cur w) (w_global w)
          (map (fun e => if Z.eqb (fst e) s then (fst e, g') else e) (w_steps w)))
    end.
  (** step_start 81-89: [step_in] -1 by default; the status of H5Gcreate is not looked at. *)
  Definition step_start (step_in : Z) (w : writer) : wres :=
    let step := if Z.ltb (-1) step_in then step_in else w_step w in
    if Z.leb (2 ^ 31 - 1) step then WUB else
    if w_open w && negb (existsb (fun e => Z.eqb (fst e) step) (w_steps w))
    then WOk (mkW (w_open w) (step + 1) (HOpen step) (w_global w) (w_steps w ++ [(step, [])]))
    else WOk (mkW (w_open w) (step + 1) HInvalid (w_global w) (w_steps w)).
  (** step_end 91 *)
  Definition step_end (w : writer) : wres :=
    match w_cur w with
    | HUnset => WUB
    | HInvalid => h5chk (-1) w
    | HOpen _ => h5chk 0 (mkW (w_open w) (w_step w) HInvalid (w_global w) (w_steps w))
    end.
  (** close 76-80 *)
  Definition w_close (w : writer) : wres :=
    h5chk (if w_open w then 0 else -1) (mkW false (w_step w) (w_cur w) (w_global w) (w_steps w)).

  (** A caller's history. *)
  Inductive wcall := CGlobal (k : string) (v : V) | CStart (step_in : Z) | CValue (k : string) (v : V) | CEnd | CClose.
  Definition do_call (w : writer) (c : wcall) : wres :=
    match c with
    | CGlobal k v => write_global k v w | CStart s => step_start s w | CValue k v => write_step k v w
    | CEnd => step_end w | CClose => w_close w
    end.
  Definition do_calls (l : list wcall) (r : wres) : wres := fold_left (fun r c => wbind r (fun w => do_call w c)) l r.
End Writer.
Arguments writer : clear implicits.
Arguments wres : clear implicits.
Arguments wcall : clear implicits.
