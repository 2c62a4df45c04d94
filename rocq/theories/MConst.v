(** Model of the conversion function of constants.py and of the names it reads.
    constants.py binds the names below (lines 1-16); a name that is read in a function body and
    is neither local, nor bound by the module, nor a builtin raises NameError. *)
From Coq Require Import Reals List Bool String.
From Verif Require Import Base MCore.
Import ListNotations.
Local Open Scope R_scope.

(** constants.py:1-18: the names the module binds to numbers.  pardisoSolver (11, bound only when
    pyMKL is installed), DEFAULT_SOLVER, DEFAULT_MATRIX_FORMAT, sqrt and n2_from_chi3 are bound
    to other objects and are left out: the function below does not read them. *)
Definition const_names : list (string * R) :=
  [("EPSILON_0", EPSILON_0); ("MU_0", MU_0); ("C_0", C_0); ("ETA_0", ETA_0); ("DEFAULT_LENGTH_SCALE", DEFAULT_LENGTH_SCALE)]%string.
(** reading a global name *)
Definition read_name {A} (x : string) (globals : list (string * A)) : res A :=
  match find (fun p => String.eqb x (fst p)) globals with Some p => Ok (snd p) | None => Raise NameError end.
(** constants.py:18-20
      return 3*chi3/(C_0)/np.sqrt(eps_m)/(EPSILON_0)
    read from left to right: C_0, then np, then eps_m, then EPSILON_0.  [read_np] stands for the
    lookup of the module np (constants.py:1 imports only the function sqrt, not numpy as np).
    Exact reals for float64. *)
Definition n2_from_chi3_in (globals : list (string * R)) (read_np : res (R -> R)) (chi3 : R) : res R :=
  rbind (read_name "C_0" globals) (fun c0 =>
  rbind read_np (fun np_sqrt =>
  rbind (read_name "eps_m" globals) (fun eps_m =>
  rbind (read_name "EPSILON_0" globals) (fun e0 =>
    Ok (3 * chi3 / c0 / np_sqrt eps_m / e0))))).
(** constants.py:18-20 with the names the module binds: no np, no eps_m *)
Definition n2_from_chi3 (chi3 : R) : res R :=
  n2_from_chi3_in const_names (read_name "np" (@nil (string * (R -> R)))) chi3.
