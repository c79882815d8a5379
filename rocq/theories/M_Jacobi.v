(** Model of the Jacobi polynomial code: include/nektar_interface/special_functions.hpp and
    src/nektar_interface/expansion_looping/jacobi_coeff_mod_basis.cpp. Exact reals; [int] arithmetic exact (the orders
    and alphas in use keep it far from overflow). A non-finite double is None. *)
From Verif Require Export M_Loop M_Coord.

(** * special_functions.hpp *)
(** pochhammer (35-41). *)
Definition pochhammer (m n : nat) : nat := forr n (fun offset output => (output * (m + offset))%nat) 1%nat.
(** jacobi (51-86), for alpha, beta >= 0. The loop variable is px = 3 + i, n = px - 1; state (pn, pnm1). *)
Definition jacobi_step (z : R) (alpha beta : nat) (i : nat) (st : option (R * R)) : option (R * R) :=
  match st with
  | None => None
  | Some (pn, pnm1) =>
      let px := (3 + i)%nat in
      let n := (px - 1)%nat in
      let coeff_pnp1 := INR (2 * (n + 1) * (n + alpha + beta + 1) * (2 * n + alpha + beta)) in
      let coeff_pn :=
        INR (2 * n + alpha + beta + 1) * (INR (alpha * alpha) - INR (beta * beta)) + INR (pochhammer (2 * n + alpha + beta) 3) * z in
      let coeff_pnm1 := -2 * INR (n + alpha) * INR (n + beta) * INR (2 * n + alpha + beta + 2) in
      match rdiv 1 coeff_pnp1 with
      | None => None
      | Some ic => let pnp1 := ic * (coeff_pn * pn + coeff_pnm1 * pnm1) in Some (pnp1, pn)
      end
  end.
Definition jacobi_c (p : nat) (z : R) (alpha beta : nat) : option R :=
  if Nat.eqb p 0 then Some 1 else
  let pnm1 := 1/2 * (INR (2 * (alpha + 1)) + INR (alpha + beta + 2) * (z - 1)) in
  if Nat.eqb p 1 then Some pnm1 else
  let pn := 1/8 * (INR (4 * (alpha + 1) * (alpha + 2)) + INR (4 * (alpha + beta + 3) * (alpha + 2)) * (z - 1) +
                   INR ((alpha + beta + 3) * (alpha + beta + 4)) * (z - 1) * (z - 1)) in
  if Nat.eqb p 2 then Some pn else
  match forr (p - 2) (jacobi_step z alpha beta) (Some (pn, pnm1)) with
  | None => None | Some (r, _) => Some r end.

(** * jacobi_coeff_mod_basis.cpp *)
(** The three table entries for (alphax, nx) (26-39); ic_pn = 1.0 / 0.0 for nx = 0: not finite. *)
Definition table_entry (alphax nx : nat) : option (R * R * R) :=
  let a := INR nx + INR alphax in
  let b := INR nx + 1 in
  let c := a + b in
  let n := INR nx in
  let c_pn := 2 * n * (c - n) * (c - 2) in
  let c_pnm10 := (c - 1) * c * (c - 2) in
  let c_pnm11 := (c - 1) * (a - b) * (c - 2 * n) in
  let c_pnm2 := -2 * (a - 1) * (b - 1) * c in
  match rdiv 1 c_pn with
  | None => None
  | Some ic => Some (ic * c_pnm10, ic * c_pnm11, ic * c_pnm2) end.
(** The constructor (16-42). The three vectors are filled in step, so they are modelled as one vector of triples. *)
Record jtable := { jt_max_n : nat; jt_max_alpha : nat; jt_stride : nat; jt_data : list (option (R * R * R)) }.
Definition make_table (max_n max_alpha : nat) : jtable :=
  {| jt_max_n := max_n; jt_max_alpha := max_alpha; jt_stride := (max_n + 1)%nat;
     jt_data := forr (max_alpha + 1) (fun alphax l => forr (max_n + 1) (fun nx l => l ++ [table_entry alphax nx]) l) [] |}.
(** host_evaluate (52-80). HBad: an assertion fails; HOut: a read outside the tables; HVal None: not finite. *)
Inductive hres := HBad | HOut | HVal (v : option R).
Definition host_step (T : jtable) (alpha : nat) (z : R) (i : nat) (st : option (option (R * R))) : option (option (R * R)) :=
  let nx := (2 + i)%nat in
  match st with
  | None => None
  | Some s =>
      match nth_error (jt_data T) (jt_stride T * alpha + nx) with
      | None => None
      | Some None => Some None
      | Some (Some (c10, c11, c2)) =>
          match s with
          | None => Some None
          | Some (pnm1, pnm2) => let pn := c10 * pnm1 * z + c11 * pnm1 + c2 * pnm2 in Some (Some (pn, pnm1)) end
      end
  end.
Definition host_evaluate (T : jtable) (n alpha : nat) (z : R) : hres :=
  if negb (Nat.leb n (jt_max_n T)) then HBad else
  if negb (Nat.leb alpha (jt_max_alpha T)) then HBad else
  if Nat.eqb n 0 then HVal (Some 1) else
  let pnm1 := 1/2 * (2 * (INR alpha + 1) + (INR alpha + 1 + 2) * (z - 1)) in
  if Nat.eqb n 1 then HVal (Some pnm1) else
  match forr (n - 1) (host_step T alpha z) (Some (Some (pnm1, 1))) with
  | None => HOut
  | Some None => HVal None
  | Some (Some (pn, _)) => HVal (Some pn) end.
