(** Model of angler/utils.py: conversions between density and permittivity and the
    Binarizer.  Arrays are Nx x Ny in C order; npa.sum and npa.abs act on all elements. *)
From Coq Require Import Reals Lra Lia List ZArith Arith Bool String.
From Coquelicot Require Import Coquelicot.
From Verif Require Import Base Linear MCore MSim MFilter MOpt.
Import ListNotations.

(** utils.py:11-12, eps2rho_bar *)
Definition eps2rho_bar (eps eps_m : R) : R := ((eps - 1) / (eps_m - 1))%R.
(** utils.py:14-15, rho_bar2eps *)
Definition rho_bar2eps (rho_bar eps_m : R) : R := (rho_bar * (eps_m - 1) + 1)%R.
(** utils.py:17-18, deps_drho_bar *)
Definition deps_drho_bar (eps eps_m : R) : R := (1 / (eps_m - 1))%R.
(** utils.py:20-23, rho_bar *)
Definition rho_bar (rho eta beta : R) : R :=
  ((tanh (beta * eta) + tanh (beta * (rho - eta))) / (tanh (beta * eta) + tanh (beta * (1 - eta))))%R.
(** utils.py:25-29, drho_bar_drho: the name partial is not defined in the module *)
Definition drho_bar_drho (rho eta beta : R) : res R := Raise NameError.

(** utils.py:55-59, Binarizer.__init__ *)
Record binarizer := mkBin { b_design : rvec; b_eps_m : R; b_exp_const : R }.

(** utils.py:70, 102, 135: rho, zero outside the design region *)
Definition bin_rho (b : binarizer) (eps : rvec) : rvec := fun k => ((eps k - 1) / (b_eps_m b - 1) * b_design b k)%R.
(** utils.py:76, 108, 141: gray level map M_nd *)
Definition M_nd (b : binarizer) (eps : rvec) : rvec := fun k => (4 * bin_rho b eps k * (1 - bin_rho b eps k))%R.
(** utils.py:73, 105, 138: N *)
Definition bin_N (b : binarizer) (Nx Ny : nat) : R := rsum (Nx * Ny) (b_design b).

(** Division by eps_m - 1 = 0 or by N = 0 gives inf or nan in numpy: not modelled further. *)
Definition representable {A} (b : binarizer) (Nx Ny : nat) (v : A) : res A :=
  if Req_EM_T (b_eps_m b) 1 then Raise NotRepresentable
  else if Req_EM_T (bin_N b Nx Ny) 0 then Raise NotRepresentable else Ok v.

(** utils.py:64-82, J_bin of density *)
Definition density_factor (b : binarizer) (Nx Ny : nat) (eps : rvec) : res R :=
  representable b Nx Ny (1 - rsum (Nx * Ny) (M_nd b eps) / bin_N b Nx Ny)%R.
(** utils.py:96-116, J_bin of density_exp *)
Definition density_exp_factor (b : binarizer) (Nx Ny : nat) (eps : rvec) : res R :=
  representable b Nx Ny (exp (- b_exp_const b * Rabs (rsum (Nx * Ny) (M_nd b eps) / bin_N b Nx Ny)))%R.

(** autograd.scipy.signal.convolve of two vectors (mode 'full'): na + nb - 1 entries *)
Definition convolve (na : nat) (a : nat -> R) (nb : nat) (v : nat -> R) : nat -> R :=
  fun n => rsum na (fun m => if Nat.leb m n && Nat.ltb (n - m) nb then (a m * v (n - m)%nat)%R else 0%R).
(** utils.py:150-152: the kernel that is used, k = [0, 1] *)
Definition smooth_kernel (m : nat) : R := if Nat.eqb m 1 then 1%R else 0%R.
(** utils.py:130-169, J_bin of smoothness; the first kernel (145-148) is overwritten *)
Definition smoothness_factor (b : binarizer) (Nx Ny : nat) (eps : rvec) : res R :=
  let M := M_nd b eps in
  let rows := rsum Nx (fun i => rsum (2 + Ny - 1) (fun n => Rabs (convolve 2 smooth_kernel Ny (fun j => M (i * Ny + j)%nat) n))) in
  let cols := rsum Ny (fun j => rsum (2 + Nx - 1) (fun n => Rabs (convolve 2 smooth_kernel Nx (fun i => M (i * Ny + j)%nat) n))) in
  representable b Nx Ny (1 - (rows + cols) / bin_N b Nx Ny / 2)%R.

(** utils.py:86-89, 120-123, 173-178: J_new of a factor.  args[2] is taken as a real array
    (the real part is used here); J is called with the same arguments before the factor. *)
Definition J_new (factor : rvec -> res R) (J : pyfun) (args : list vec) : res R :=
  match nth_error args 2 with
  | None => Raise IndexError
  | Some a => rbind (pf_call J args) (fun v => rbind (factor (fun k => Re (a k))) (fun f => Ok (v * f)%R))
  end.
(** inspect.signature(J_new).parameters: args and kwargs *)
Definition J_new_num_params : nat := 2.
(** objective.py:43: Objective accepts a function with this number of parameters *)
Definition objective_accepts (num_params : nat) (args : list obj_arg) : bool := Nat.eqb (List.length args) num_params.
