(** Model of the grid step and of the difference matrices of angler in IEEE binary64.  As in MFloat.v,
    infinities, NaN and the sign of zero are not modelled. *)
From Coq Require Import Reals List Arith ZArith.
From Verif Require Import Base MCore MFloat.
Local Open Scope R_scope.

(** simulation.py:41-42, xrange = [0, float(Nx*dl)]; a python int times a float converts the int, which
    is exact below 2^53 *)
Definition range_f (N : nat) (dl : R) : R * R := (0, fl (INR N * dl)).
(** linalg.py:28-36, dL: np.diff(xrange)[0] over N *)
Definition step_f (N : nat) (dl : R) : R := fl (fl (snd (range_f N dl) - fst (range_f N dl)) / INR N).
(** derivatives.py:7-40, createDws: the entries -1, 0, 1 of the kron product, each times 1/dx.  These
    entries are those of [createDws] with steps 1, where nothing is rounded.  With one pixel along the
    axis the matrix is sp.eye, not multiplied. *)
Definition createDws_f (w : axis) (s : side) (dx dy : R) (Nx Ny : nat) : nat -> nat -> R := fun r c =>
  let unit_entry := fst (createDws w s 1 1 Nx Ny r c) in
  if Nat.ltb 1 (match w with AxX => Nx | AxY => Ny end)
  then fl (fl (1 / match w with AxX => dx | AxY => dy end) * unit_entry) else unit_entry.
(** the product of a sparse matrix with a vector: scipy adds the products of one row to zero in the
    order of the columns.  Entries that are zero are not stored; here they add fl (0 * x) = 0, which
    changes nothing. *)
Definition mv_f (M : nat) (A : nat -> nat -> R) (x : nat -> R) (r : nat) : R :=
  fold_left (fun acc c => fl (acc + fl (A r c * x c))) (seq 0 M) 0.
(** linalg.py:63-66, 89-92: the derivative matrices of a simulation with steps dL(N, xrange, yrange).
    Simplification: no PML.  Then S_create (pml.py:52-86) makes identity matrices, and their product
    with createDws multiplies every entry by 1 and is exact. *)
Definition deriv_f (w : axis) (s : side) (Nx Ny : nat) (dl : R) : nat -> nat -> R :=
  createDws_f w s (step_f Nx dl) (step_f Ny dl) Nx Ny.
(** a derivative matrix times a field.  Fields are complex; the matrix is real (its imaginary parts are
    zero), so the two parts of the field are differentiated separately, each as here. *)
Definition apply_deriv_f (w : axis) (s : side) (Nx Ny : nat) (dl : R) (x : nat -> R) : nat -> R :=
  mv_f (Nx * Ny) (deriv_f w s Nx Ny dl) x.
