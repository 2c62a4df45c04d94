(** Model of is_equal (angler/linalg.py:39-42). *)
From Coq Require Import Reals List Arith Bool.
From Coquelicot Require Import Coquelicot.
From Verif Require Import Base Linear MCore MSim.

(** nnz of [matrix1 != matrix2] for scipy sparse matrices of the same size n x n: the number of
    positions at which the entries differ (entries that are not stored are zeros) *)
Definition ne_nnz (n : nat) (A B : mat) : nat :=
  List.length (List.filter (fun ij => if Ceq_dec (A (fst ij) (snd ij)) (B (fst ij) (snd ij)) then false else true)
                           (List.list_prod (List.seq 0 n) (List.seq 0 n))).
(** linalg.py:39-42; for matrices of different shape scipy's [!=] is the python bool True,
    which has no attribute nnz *)
Definition is_equal (n1 : nat) (A : mat) (n2 : nat) (B : mat) : res bool :=
  if Nat.eqb n1 n2 then Ok (Nat.eqb (ne_nnz n1 A B) 0) else Raise AttributeError.
