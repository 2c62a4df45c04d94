(** Model of angler/filter.py, of the initial density of simulation.py and of the update of
    optimization.py in IEEE binary64, for the case in which a filter radius is given: the filter
    matrix is then a float64 csr matrix and every array below is real.  (Without a radius
    optimization.py:31 uses a complex64 identity, the densities become complex arrays, and numpy's
    complex tanh and complex division are used instead: not modelled.)
    [th] is the tanh of the C library, which IEEE 754 does not specify; it is a parameter, and the
    theorems say what they need of it.  Not modelled: infinities, NaN and the sign of zero, and
    compilers which contract a*b+c into one rounding. *)
From Coq Require Import Reals Lra Lia List ZArith.
From Flocq Require Import Core.
From Verif Require Import Base MCore MSim MFilter MOpt MFloat.
Local Open Scope R_scope.

(** one row of a csr matrix: its stored (column, value) pairs in storage order *)
Definition csr_row := list (nat * R).
(** filter.py:93-99, rho2rhot: W.dot(rho_vec), one entry; scipy's csr_matvec adds the products of a
    row in storage order, starting from 0 *)
Definition rho2rhot_f (W : nat -> csr_row) (rho : nat -> R) (k : nat) : R :=
  fold_left (fun acc cw => fl (acc + fl (snd cw * rho (fst cw)))) (W k) 0.
(** filter.py:80-81: norm_vec = W.dot(ones), with 1 in place of 0 *)
Definition norm_f (W : nat -> csr_row) (r : nat) : R :=
  let s := rho2rhot_f W (fun _ => 1) r in if Req_EM_T s 0 then 1 else s.
(** adding the value d to entry (k, k): part of [no_des_mat + ...], filter.py:86 *)
Fixpoint add_diag (k : nat) (d : R) (row : csr_row) : csr_row :=
  match row with
  | nil => (k, d) :: nil
  | (c, v) :: t => if Nat.eqb c k then (c, fl (v + d)) :: t else (c, v) :: add_diag k d t
  end.
(** filter.py:73-86: the final row k of get_W from the unnormalised matrix W of lines 20-71: the
    columns are divided by norm_vec, row k is multiplied by the design region and its complement is
    added on the diagonal; the sparse addition drops entries which are 0.  The storage order is not
    specified by scipy: the theorems are about every permutation of this row. *)
Definition get_W_row_f (design : nat -> R) (W : nat -> csr_row) (k : nat) : csr_row :=
  filter (fun cw => if Req_EM_T (snd cw) 0 then false else true)
    (add_diag k (fl (1 - design k))
       (map (fun cw => (fst cw, fl (design k * fl (snd cw * fl (1 / norm_f W (fst cw)))))) (W k))).
(** filter.py:102-106, rhot2rhob (elementwise) *)
Definition rhot2rhob_f (th : R -> R) (rhot eta beta : R) : R :=
  let num := fl (th (fl (beta * eta)) + th (fl (beta * fl (rhot - eta)))) in (* 104 *)
  let den := fl (th (fl (beta * eta)) + th (fl (beta * fl (1 - eta)))) in (* 105 *)
  fl (num / den). (* 106 *)
(** filter.py:109-111, rhob2eps (elementwise) *)
Definition rhob2eps_f (rhob eps_m : R) : R := fl (1 + fl (rhob * fl (eps_m - 1))).
(** filter.py:114-116, eps2rho (elementwise); simulation.py:341 calls it on the starting permittivity *)
Definition eps2rho_f (eps eps_m : R) : R := fl (fl (eps - 1) / fl (eps_m - 1)).
(** filter.py:119-123, rho2eps, pixel k *)
Definition rho2eps_f (th : R -> R) (rho : nat -> R) (eps_m : R) (W : nat -> csr_row) (eta beta : R) (k : nat) : R :=
  rhob2eps_f (rhot2rhob_f th (rho2rhot_f W rho k) eta beta) eps_m.
(** optimization.py:430-432: the density after one update, pixel k (the clipping is exact) *)
Definition update_rho_f (design : nat -> R) (step : R) (grad rho : nat -> R) (k : nat) : R :=
  clip01 (fl (rho k + fl (fl (design k * step) * grad k))).
(** optimization.py:226-235, 246-262: the densities left by gradient descent or ADAM, one update per (step size, gradient) *)
Definition run_rho_f (design : nat -> R) (steps : list (R * (nat -> R))) (rho : nat -> R) : nat -> R :=
  fold_left (fun r sg => update_rho_f design (fst sg) (snd sg) r) steps rho.
