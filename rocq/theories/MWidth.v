(** Model of the analysis in Notebooks/Nonlinear_system.ipynb: effective width of a field
    profile, and the self phase modulation it is compared with.  Cells are counted from 0,
    markdown cells included.  Plots and printed text are left out.  Division by a field of 0
    (nan in numpy) is Coq's division; the theorems ask for a field that is not 0. *)
From Coq Require Import Reals Lra Lia List ZArith Arith Bool String.
From Coquelicot Require Import Coquelicot.
From Verif Require Import Base Linear MCore.
Local Open Scope R_scope.

(** cell 5: width_eff = np.square(np.sum(np.square(np.abs(field_profile)))) /
    np.sum(np.power(np.abs(field_profile), 4)) *)
Definition width_eff (Ny : nat) (field_profile : vec) : R :=
  rsum Ny (fun j => Cmod (field_profile j) ^ 2) ^ 2 / rsum Ny (fun j => Cmod (field_profile j) ^ 4).
(** cell 5: width = dl*width_eff; height = width*100; Aeff = width*height *)
Definition guide_width (dl : R) (Ny : nat) (field_profile : vec) : R := dl * width_eff Ny field_profile.
Definition guide_height (dl : R) (Ny : nat) (field_profile : vec) : R := guide_width dl Ny field_profile * 100.
Definition A_eff (dl : R) (Ny : nat) (field_profile : vec) : R := guide_width dl Ny field_profile * guide_height dl Ny field_profile.
(** cell 5: n2 = 3*chi3/L0/L0/(C_0/L0)/np.sqrt(eps_m)/(EPSILON_0*L0) *)
Definition n2_units (chi3 eps_m L0 : R) : R := 3 * chi3 / L0 / L0 / (C_0 / L0) / sqrt eps_m / (EPSILON_0 * L0).
(** cell 5: gamma_spm = (omega/3e8*L0)*n2/Aeff *)
Definition gamma_spm (omega L0 n2 Aeff : R) : R := (omega / 300000000 * L0) * n2 / Aeff.
(** cell 5: (pwr_vec*height)*L*gamma_spm, the predicted phase for the power P = pwr*height and
    the length L = dl*(Nx-200) *)
Definition spm_phase (omega chi3 eps_m L0 dl : R) (n Ny : nat) (field_profile : vec) (P : R) : R :=
  P * (dl * INR n) * gamma_spm omega L0 (n2_units chi3 eps_m L0) (A_eff dl Ny field_profile).
