(** Model of the objective of Notebooks/Accelerator.ipynb and of the number it is normalized
    with.  Cells are counted from 0, markdown cells included.  Plots and printed text are left
    out.  Division by E0 = 0 (nan in numpy) is Coq's division; the theorems ask for E0 <> 0
    where it matters. *)
From Coq Require Import Reals Lra Lia List ZArith Arith Bool String.
From Coquelicot Require Import Coquelicot.
From Verif Require Import Base Linear MCore MSim MFilter MOpt.
Import ListNotations.
Local Open Scope string_scope.

(** cell 7: src = np.zeros((Nx, Ny)); src[c, :] = amp, with c = NPML[0] + int(spc/dl) and
    amp = 1e-9 *)
Definition column_src (Nx Ny c : nat) (amp : R) : nd C :=
  mkNd Nx Ny (fun k => if Nat.eqb (k / Ny) c then RtoC amp else RtoC 0).
(** cells 7 and 8: Simulation(omega, eps_r, dl, NPML, 'Hz') with that source.  [eps] is the
    permittivity at the time of the solve; whether it was given to the constructor or assigned
    to eps_r makes no difference (C13).  The notebook uses the default length scale, a
    parameter here. *)
Definition driven (omega : R) (eps : nd R) (dl : R) (NPML : list Z) (L0 : R) (c : nat) (amp : R) : res sim :=
  rbind (Simulation omega eps dl (Some NPML) "Hz" L0) (fun s =>
  Ok (upd_src (column_src (nd_nx eps) (nd_ny eps) c amp) s)).
(** the Ey of sim.solve_fields() *)
Definition Ey_of (e : env) (s : sim) : res vec :=
  match solve_fields e false false s with
  | (_, Ok (_, Y, _)) => Ok Y
  | (_, Raise x) => Raise x
  end.
(** cell 8: E0 = np.mean(np.abs(Ey[nx, :])) *)
Definition mean_abs (Ny nx : nat) (Ey : vec) : R := (rsum Ny (fun j => Cmod (Ey (nx * Ny + j)%nat)) / INR Ny)%R.
(** cell 10: npa.exp(1j*2*npa.pi*dl*npa.linspace(0, Ny-1, Ny)/beta/lambda0) at index j *)
Definition electron_phase (dl beta lambda0 : R) (j : nat) : C :=
  let t := (2 * PI * dl * INR j / beta / lambda0)%R in (cos t, sin t).
(** cell 10: eta *)
Definition accel_eta (Ny nx : nat) (dl beta lambda0 : R) : vec :=
  fun k => if Nat.eqb (k / Ny) nx then (RtoC (1 / INR Ny) * electron_phase dl beta lambda0 (k mod Ny))%C else RtoC 0.
(** cell 10: J(ey) = npa.sum(npa.real(ey*eta)) / E0, with its gradient *)
Definition accel_J (Nx Ny nx : nat) (dl beta lambda0 E0 : R) : pyfun :=
  let eta := accel_eta Ny nx dl beta lambda0 in
  mkFun 1 (fun Fs => (rsum (Nx * Ny) (fun k => Re (List.nth 0 Fs vzero k * eta k)%C) / E0)%R)
          (fun _ _ k => (eta k / RtoC E0)%C).
(** cells 7, 8 and 10 together: the objective of the structure [eps], normalized with the
    structure [eps_norm]; nx = int(Nx/2) *)
Definition accel_gain (e : env) (omega : R) (eps eps_norm : nd R) (dl : R) (NPML : list Z) (L0 : R) (c : nat)
    (beta lambda0 amp : R) : res R :=
  let Nx := nd_nx eps in let Ny := nd_ny eps in let nx := (Nx / 2)%nat in
  rbind (driven omega eps_norm dl NPML L0 c amp) (fun sn =>
  rbind (Ey_of e sn) (fun En =>
  rbind (driven omega eps dl NPML L0 c amp) (fun s =>
  rbind (Ey_of e s) (fun Ey =>
  Ok (pf_val (accel_J Nx Ny nx dl beta lambda0 (mean_abs Ny nx En)) [Ey]))))).
