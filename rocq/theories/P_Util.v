(** Property theorems C13-C17. *)
From Coq Require Import Sorting.Permutation.
From Verif Require Import M_Util S_Util L_Util.

(** C13: after any history of writes (constructor maps or set), get of the type last
    written returns that value, get of the other type throws, and the default is
    returned exactly when the key was never written. *)
Theorem C13_parameter_store : forall (I R : Type) (ops : list (psop I R)) (k : string) (di : I) (dr : R),
  (forall i, last_write (writes ops) k (VInt i) ->
     ps_get_int (ps_run ops) k di = Got i /\ ps_get_real (ps_run ops) k dr = BadAccess) /\
  (forall r, last_write (writes ops) k (VReal r) ->
     ps_get_real (ps_run ops) k dr = Got r /\ ps_get_int (ps_run ops) k di = BadAccess) /\
  (ps_contains (ps_run ops) k = true <-> In k (map fst (writes ops))) /\
  (~ In k (map fst (writes ops)) ->
     ps_get_int (ps_run ops) k di = Got di /\ ps_get_real (ps_run ops) k dr = Got dr).
Proof. exact @store_spec. Qed.
Print Assumptions C13_parameter_store.
Definition ex_ops : list (psop Z bool) :=
  [OAddInts [("a", 1%Z); ("b", 2%Z)]; OAddReals [("b", true)]; OSetInt "a" 5%Z]%string.
Example C13_nonvacuous :
  last_write (writes ex_ops) "a"%string (VInt 5%Z) /\ last_write (writes ex_ops) "b"%string (VReal true) /\
  ps_get_int (ps_run ex_ops) "a"%string 0%Z = Got 5%Z /\ ps_get_int (ps_run ex_ops) "c"%string 9%Z = Got 9%Z.
Proof.
  split; [|split; [|vm_compute; auto]].
  - exists [("a", VInt 1%Z); ("b", VInt 2%Z); ("b", VReal true)]%string, []. vm_compute. tauto.
  - exists [("a", VInt 1%Z); ("b", VInt 2%Z)]%string, [("a", VInt 5%Z)]%string. split; [reflexivity|].
    simpl. intros [H|[]]. discriminate.
Qed.

(** C14: an event applies, to the state left by the history so far, exactly the
    callbacks registered for it, once each and in registration order. *)
Theorem C14_callbacks : forall (S : Type) (ops : list (cbop S)) (s : S),
  cb_run (ops ++ [FirePre]) s = fold_left (fun s f => f s) (registered_pre ops) (cb_run ops s) /\
  cb_run (ops ++ [FirePost]) s = fold_left (fun s f => f s) (registered_post ops) (cb_run ops s) /\
  (forall f, cb_run (ops ++ [RegPre f]) s = cb_run ops s) /\
  (forall f, cb_run (ops ++ [RegPost f]) s = cb_run ops s).
Proof. exact @callbacks_spec. Qed.
Print Assumptions C14_callbacks.
Definition say (n : nat) (log : list nat) := log ++ [n].
Example C14_nonvacuous :
  cb_run [RegPre (say 1); RegPost (say 2); FirePre; RegPre (say 3); RegPre (say 1); FirePost; FirePre] []
  = [1; 2; 1; 3; 1]%nat.
Proof. reflexivity. Qed.

(** C15: for non-empty local meshes with distinct ids, the cells enumerate the local
    elements (with their shape types), and translation is the exact inverse; ids of
    elements that are not local are never translated to a cell. *)
Theorem C15_cell_translation_2d : forall tris quads : list (Z * geom),
  tris ++ quads <> [] -> NoDup (map fst (tris ++ quads)) ->
  Forall (fun kg => fst kg = fst (snd kg)) (tris ++ quads) ->
  Forall (fun kg => 0 <= fst kg < INT_MAX)%Z (tris ++ quads) ->
  exists c, construct_maps (get_all_elements_2d tris quads) = Some c /\
    Permutation (map_to_nektar c) (map fst (tris ++ quads)) /\
    Permutation (combine (map_to_nektar c) (map_to_geom_type c)) (map snd (tris ++ quads)) /\
    (forall i id, nth_error (map_to_nektar c) i = Some id <-> translate c id = Some (Z.of_nat i)) /\
    (forall id v, translate c id = Some v -> (0 <= v < Z.of_nat (length (tris ++ quads)))%Z) /\
    (forall particles, (forall p, In p particles -> In p (map fst (tris ++ quads))) ->
       Forall2 (fun p r => exists i, r = Some (Z.of_nat i) /\ nth_error (map_to_nektar c) i = Some p)
               particles (execute_translation c particles)).
Proof.
  intros tris quads H1 H2 H3 H4. destruct (elements_2d_perm tris quads H2) as [P S].
  destruct (translation_from_merged _ _ S P H1 H3 H4) as (c & A & B & C & D & E). exists c.
  split; [exact A|]. split; [exact B|]. split; [exact C|]. split; [exact D|]. split; [exact E|].
  intros ps Hp. unfold execute_translation. induction ps as [|p ps IH]; simpl; constructor.
  - assert (Hi : In p (map_to_nektar c)) by (eapply Permutation_in; [symmetry; exact B|apply Hp; now left]).
    apply In_nth_error in Hi as (i & Hi). exists i. split; auto. now apply D.
  - apply IH. intros q Hq. apply Hp. now right.
Qed.
Print Assumptions C15_cell_translation_2d.
Theorem C15_cell_translation_3d : forall tets pyrs prisms hexs : list (Z * geom),
  let all := tets ++ pyrs ++ prisms ++ hexs in
  all <> [] -> NoDup (map fst all) ->
  Forall (fun kg => fst kg = fst (snd kg)) all ->
  Forall (fun kg => 0 <= fst kg < INT_MAX)%Z all ->
  exists c, construct_maps (get_all_elements_3d tets pyrs prisms hexs) = Some c /\
    Permutation (map_to_nektar c) (map fst all) /\
    Permutation (combine (map_to_nektar c) (map_to_geom_type c)) (map snd all) /\
    (forall i id, nth_error (map_to_nektar c) i = Some id <-> translate c id = Some (Z.of_nat i)) /\
    (forall id v, translate c id = Some v -> (0 <= v < Z.of_nat (length all))%Z).
Proof.
  intros a b c d all H1 H2 H3 H4. destruct (elements_3d_perm a b c d H2) as [P S].
  exact (translation_from_merged _ _ S P H1 H3 H4).
Qed.
Print Assumptions C15_cell_translation_3d.
Definition ex_tris : list (Z * geom) := [(4, (4, 3)); (9, (9, 3))]%Z.
Definition ex_quads : list (Z * geom) := [(2, (2, 4)); (7, (7, 4))]%Z.
Example C15_nonvacuous : exists c, construct_maps (get_all_elements_2d ex_tris ex_quads) = Some c /\
  map_to_nektar c = [2; 4; 7; 9]%Z /\ map_to_geom_type c = [4; 3; 4; 3]%Z /\
  map (translate c) [9; 2; 3; 7; 100]%Z = [Some 3; Some 0; None; Some 2; None]%Z.
Proof. eexists. split; [vm_compute; reflexivity|]. vm_compute. auto. Qed.
(** C15 without the non-emptiness hypothesis: FALSE of the code.  A rank that owns no
    element computes [lowest() - max()] in int, which overflows (undefined behaviour). *)
Theorem C15_empty_rank_refuted :
  ~ (forall geoms : list (Z * geom), NoDup (map fst geoms) ->
       Forall (fun kg => fst kg = fst (snd kg)) geoms ->
       Forall (fun kg => 0 <= fst kg < INT_MAX)%Z geoms ->
       exists c, construct_maps geoms = Some c).
Proof.
  intros H. destruct (H [] (NoDup_nil _) (Forall_nil _) (Forall_nil _)) as (c & E). vm_compute in E. discriminate.
Qed.
Print Assumptions C15_empty_rank_refuted.

(** C16 *)
Theorem C16_global_size : forall N L : Z, (0 <= N)%Z -> (0 < L)%Z ->
  least_multiple_above L N (get_global_size N L).
Proof. exact global_size_spec. Qed.
Print Assumptions C16_global_size.
Theorem C16_vector_padding : forall VL L : Z, (0 < VL)%Z -> (0 <= L)%Z ->
  least_multiple_above VL L (pad_to_vector_length VL L).
Proof. exact pad_spec. Qed.
Print Assumptions C16_vector_padding.
Example C16_nonvacuous : get_global_size 17 8 = 24%Z /\ get_global_size 16 8 = 16%Z /\
  pad_to_vector_length 4 9 = 12%Z /\ pad_to_vector_length 4 8 = 8%Z.
Proof. vm_compute. auto. Qed.

(** C17 *)
Theorem C17_field_index_map : forall (names : list string) (n : string),
  (In n names -> exists k, nth_error names k = Some n /\
      (forall k', (k < k')%nat -> nth_error names k' <> Some n) /\
      fim_get_idx (fim_make names) n = Z.of_nat k /\ fim_at (fim_make names) n = Some (Z.of_nat k)) /\
  (~ In n names -> fim_get_idx (fim_make names) n = (-1)%Z /\ fim_at (fim_make names) n = None).
Proof. exact fim_spec. Qed.
Print Assumptions C17_field_index_map.
Example C17_nonvacuous : map (fim_get_idx (fim_make ["u"; "v"; "u"; "p"]%string)) ["u"; "v"; "p"; "q"]%string
  = [2; 1; 3; -1]%Z.
Proof. vm_compute. reflexivity. Qed.
