(** Counted loops and memory, shared by the numeric kernels. Exact reals. *)
From Verif Require Export M_RealBase.
From Coq Require Export Arith.

(** for (int i = 0; i < n; i++) body *)
Definition forr {S} (n : nat) (body : nat -> S -> S) (st : S) : S := fold_left (fun s i => body i s) (seq 0 n) st.
(** A buffer of doubles. [upd b i v]: b[i] = v. [at_ b o]: the pointer b + o, read. *)
Definition buf := nat -> R.
Definition upd (b : buf) (i : nat) (v : R) : buf := fun j => if Nat.eqb j i then v else b j.
Definition at_ (b : buf) (o : nat) : buf := fun i => b (o + i)%nat.
