(** Model of the objective of Notebooks/Accelerator_multi_channel.ipynb.  Cells are counted
    from 0, markdown cells included.  Plots, printed text and the reference run of cell 8,
    whose number is not used by the objective, are left out.  So is the gradient of the
    objective.  Division by a field of 0 (nan in numpy) is Coq's division; the theorems ask for
    a field that is not 0 where it matters. *)
From Coq Require Import Reals Lra Lia List ZArith Arith Bool String.
From Coquelicot Require Import Coquelicot.
From Verif Require Import Base Linear MCore MSim MFilter MOpt MStruct MAccel.
Import ListNotations.
Local Open Scope string_scope.

(** cell 10: int(center/dl) for center in [i * (gap + L) for i in range(num_channels//2+1)] *)
Definition channel_offsets (gap L : R) (num_channels : Z) (dl : R) : list Z :=
  List.map (fun i => py_int (INR i * (gap + L) / dl)) (List.seq 0 (Z.to_nat (num_channels / 2 + 1))).
(** cell 10: the columns eta[nx - int(center/dl), :] and eta[nx + int(center/dl), :] *)
Definition marked (nx : nat) (offsets : list Z) (col : nat) : bool :=
  List.existsb (fun o => Z.eqb (Z.of_nat col) (Z.of_nat nx - o) || Z.eqb (Z.of_nat col) (Z.of_nat nx + o)) offsets.
(** cell 10: eta.  numpy raises IndexError if nx + int(center/dl) is not below Nx.  If it is
    below, nx - int(center/dl) is not negative (nx = int(Nx/2)), so no index counts from the
    end.  Offsets are taken to be not negative, as for a positive gap + L. *)
Definition multi_eta (Nx Ny : nat) (offsets : list Z) (dl beta lambda0 : R) : res vec :=
  let nx := (Nx / 2)%nat in
  if List.existsb (fun o => Z.leb (Z.of_nat Nx) (Z.of_nat nx + o)) offsets then Raise IndexError
  else Ok (fun k => if marked nx offsets (k / Ny) then (RtoC (1 / INR Ny) * electron_phase dl beta lambda0 (k mod Ny))%C else RtoC 0).
(** cell 10: npa.sum(npa.real(ey*eta)) / npa.sqrt(npa.square(npa.max(npa.abs(ex))) +
    npa.square(npa.max(npa.abs(ey)))) / num_channels, on arrays of M entries *)
Definition multi_value (M : nat) (eta : vec) (num_channels : Z) (ex ey : vec) : R :=
  (rsum M (fun k => Re (ey k * eta k)%C) / sqrt (rmax M (fun k => Cmod (ex k)) ^ 2 + rmax M (fun k => Cmod (ey k)) ^ 2) / IZR num_channels)%R.
(** cells 7 and 10: the objective of the structure [eps], lit from column c *)
Definition multi_gain (e : env) (omega : R) (eps : nd R) (dl : R) (NPML : list Z) (L0 : R) (c : nat) (amp : R)
    (gap L : R) (num_channels : Z) (beta lambda0 : R) : res R :=
  rbind (driven omega eps dl NPML L0 c amp) (fun s =>
  match solve_fields e false false s with
  | (_, Ok (X, Y, _)) =>
      rbind (multi_eta (nd_nx eps) (nd_ny eps) (channel_offsets gap L num_channels dl) dl beta lambda0) (fun eta =>
      Ok (multi_value (nd_nx eps * nd_ny eps) eta num_channels X Y))
  | (_, Raise x) => Raise x
  end).
