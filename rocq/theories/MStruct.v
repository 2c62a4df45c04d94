(** Model of angler/structures.py: grid coordinates, regions and the structure builders.
    Lengths are real numbers; the floating point rounding of linspace is not modelled.
    A builder returns the pair (eps_r, design_region) or raises. *)
From Coq Require Import Reals Lra Lia List ZArith Arith Bool String.
From Coquelicot Require Import Coquelicot.
From Verif Require Import Base MCore MSim.
Import ListNotations.

(** python's int() on a real number: truncation towards zero *)
Definition py_int (x : R) : Z :=
  if Rle_dec 0 x then Int_part x else (- Int_part (- x))%Z.

Definition Rltb (a b : R) : bool := if Rlt_dec a b then true else false.

(** python division of numbers *)
Definition py_div (a b : R) : res R := if Req_EM_T b 0 then Raise ZeroDivisionError else Ok (a / b)%R.

(** NPML[i] of a list of integers *)
Definition npml_at (NPML : list Z) (i : nat) : res Z :=
  match nth_error NPML i with Some z => Ok z | None => Raise IndexError end.

(** np.linspace(a, b, n) for n >= 0 (n = 1 gives [a]) *)
Definition linspace (a b : R) (n : nat) (i : nat) : R :=
  if Nat.leb n 1 then a else (a + INR i * ((b - a) / INR (n - 1)))%R.

(** structures.py:10-21, get_grid: the coordinate of pixel (i, j) is
    (grid_coord Nx dl i, grid_coord Ny dl j) (meshgrid with indexing 'ij') *)
Definition grid_coord (n : nat) (dl : R) (i : nat) : R :=
  linspace (- INR n / 2 * dl) (INR n / 2 * dl) n i.

(** a region: a function of the coordinates that returns a boolean *)
Definition region := R -> R -> bool.

(** structures.py:24-40, apply_regions on the grid of get_grid(shape, dl): background,
    then for each region in turn the pixels inside it are set to eps_start (35-38).
    np.vectorize raises ValueError on arrays without elements. *)
Definition apply_regions (reg_list : list region) (Nx Ny : nat) (dl eps_start eps_background : R) : res (nd R) :=
  match reg_list with
  | [] => Ok (mkNd Nx Ny (fun _ => eps_background))
  | _ =>
      if Nat.eqb (Nx * Ny) 0 then Raise ValueError
      else Ok (mkNd Nx Ny (fun k =>
             fold_left (fun v (reg : region) =>
                          if reg (grid_coord Nx dl (k / Ny)) (grid_coord Ny dl (k mod Ny)) then eps_start else v)
                       reg_list eps_background))
  end.

(** np.linspace with a negative number of points raises ValueError (in get_grid) *)
Definition grid_size (n : Z) : res nat := if Z.ltb n 0 then Raise ValueError else Ok (Z.to_nat n).

(** what every builder does at its end: eps_r from its regions, the design region from
    another list of regions as 2 - 1 inside and 1 - 1 outside (for example 75-76) *)
Definition build (Nx Ny : Z) (dl : R) (regs design : list region) (eps_start eps_background : R) : res (nd R * nd R) :=
  rbind (grid_size Nx) (fun nx => rbind (grid_size Ny) (fun ny =>
  rbind (apply_regions regs nx ny dl eps_start eps_background) (fun e =>
  rbind (apply_regions design nx ny dl 2 1) (fun d =>
  Ok (e, mkNd (nd_nx d) (nd_ny d) (fun k => (nd_buf d k - 1)%R)))))).

(** the box of three_port, two_port and N_port (structures.py:68, 102, 137) with y_mid *)
Definition box_region (L H y_mid : R) : region :=
  fun x y => Rltb (Rabs x) (L / 2) && Rltb (Rabs (y - y_mid)) (H / 2).
(** wg_in (structures.py:69, 138): x < 0 and |y - y0| < width / 2 *)
Definition left_guide (y0 width : R) : region := fun x y => Rltb x 0 && Rltb (Rabs (y - y0)) (width / 2).
(** wg_top, wg_bot, wg_i (structures.py:70-71, 143) *)
Definition right_guide (y0 width : R) : region := fun x y => Rltb 0 x && Rltb (Rabs (y - y0)) (width / 2).
(** wg of two_port and ortho_port (structures.py:103, 177): across the whole domain *)
Definition through_guide (w : R) : region := fun _ y => Rltb (Rabs y) (w / 2).

(** structures.py:43-78, three_port.  Ny/2 - ny is computed in python as a float. *)
Definition three_port (L H w d l spc dl : R) (NPML : list Z) (eps_start eps_background : R) : res (nd R * nd R) :=
  rbind (npml_at NPML 0) (fun p0 => rbind (py_div (2 * l + L) dl) (fun qx =>
  rbind (npml_at NPML 1) (fun p1 => rbind (py_div (H + 2 * spc) dl) (fun qy =>
  let Nx := (2 * p0 + py_int qx)%Z in
  let Ny := (2 * p1 + py_int qy)%Z in
  let ny := py_int (IZR Ny / 2) in
  let y_mid := (dl * IZR (py_int (IZR Ny / 2 - IZR ny)))%R in
  let y_bot := (dl * IZR (py_int (IZR Ny / 2 - IZR ny - d / 2 / dl)))%R in
  let y_top := (dl * IZR (py_int (IZR Ny / 2 - IZR ny + d / 2 / dl)))%R in
  let wg_width_px := IZR (py_int (w / dl)) in
  let box := box_region L H y_mid in
  build Nx Ny dl
    [box; left_guide y_mid (dl * wg_width_px); right_guide y_bot (dl * wg_width_px); right_guide y_top (dl * wg_width_px)]
    [box] eps_start eps_background)))).

(** structures.py:81-108, two_port *)
Definition two_port (L H w l spc dl : R) (NPML : list Z) (eps_start : R) : res (nd R * nd R) :=
  rbind (npml_at NPML 0) (fun p0 => rbind (py_div (2 * l + L) dl) (fun qx =>
  rbind (npml_at NPML 1) (fun p1 => rbind (py_div (H + 2 * spc) dl) (fun qy =>
  build (2 * p0 + py_int qx) (2 * p1 + py_int qy) dl
    [through_guide w] [box_region L H 0] eps_start 1)))).

(** y_i of N_port (structures.py:142) *)
Definition out_guide_y (N : Z) (d : R) (i : nat) : R := ((INR i - (IZR N - 1) / 2) * d)%R.
(** structures.py:111-149, N_port; N is an integer, range(N) is empty for N <= 0 *)
Definition N_port (N : Z) (L H w d l spc dl : R) (NPML : list Z) (eps_start eps_background : R) : res (nd R * nd R) :=
  rbind (npml_at NPML 0) (fun p0 => rbind (py_div (2 * l + L) dl) (fun qx =>
  rbind (npml_at NPML 1) (fun p1 => rbind (py_div (H + 2 * spc) dl) (fun qy =>
  let wg_width_px := IZR (py_int (w / dl)) in
  let box := box_region L H 0 in
  build (2 * p0 + py_int qx) (2 * p1 + py_int qy) dl
    (box :: left_guide (1 / 100) (dl * wg_width_px) ::
       List.map (fun i => right_guide (out_guide_y N d i) (dl * wg_width_px)) (List.seq 0 (Z.to_nat N)))
    [box] eps_start eps_background)))).

(** box3 of ortho_port (structures.py:176) *)
Definition down_guide (w dl : R) (ylow yhigh : R) : region :=
  fun x y => Rltb (- w / 2) x && Rltb x (w / 2 + dl / 2) && (Rltb ylow y && Rltb y yhigh).
(** structures.py:151-184, ortho_port *)
Definition ortho_port (L L2 H H2 w l dl : R) (NPML : list Z) (eps_start : R) : res (nd R * nd R) :=
  rbind (npml_at NPML 0) (fun p0 => rbind (py_div (2 * l + L) dl) (fun qx =>
  rbind (npml_at NPML 1) (fun p1 => rbind (py_div (2 * l + H) dl) (fun qy =>
  let box := fun x y => Rltb (Rabs x) (L / 2) && Rltb (Rabs y) (w / 2) in
  let box2 := fun x y => Rltb (Rabs x) (L2 / 2) && Rltb (Rabs y) (H2 / 2) in
  let box3 := down_guide w dl (- H2 / 2) (H / 2) in
  let wg2 := fun x y => Rltb (- w / 2) x && Rltb x (w / 2 + dl / 2) && Rltb 0 y in
  build (2 * p0 + py_int qx) (2 * p1 + py_int qy) dl
    [through_guide w; wg2] [box; box2; box3] eps_start 1)))).

(** des of accelerator and lambda_i of accelerator_multi (structures.py:208, 245) *)
Definition slab (gap L c : R) : region :=
  fun x _ => Rltb (gap / 2) (Rabs x - c) && Rltb (Rabs x - c) (gap / 2 + L).
(** structures.py:187-214, accelerator *)
Definition accelerator (beta gap lambda0 L spc dl : R) (NPML : list Z) (eps_start : R) : res (nd R * nd R) :=
  rbind (npml_at NPML 0) (fun p0 => rbind (py_div (4 * spc + 2 * L + gap) dl) (fun qx =>
  rbind (py_div (beta * lambda0) dl) (fun qy =>
  build (2 * p0 + py_int qx) (py_int qy) dl [slab gap L 0] [slab gap L 0] eps_start 1))).

(** structures.py:216-254, accelerator_multi; python's n % 2 and n // 2 are Z.modulo and
    Z.div.  The print of the centres (248) is not modelled. *)
Definition accelerator_multi (beta gap lambda0 L spc : R) (num_channels : Z) (dl : R) (NPML : list Z) (eps_start : R)
  : res (nd R * nd R) :=
  if Z.eqb (num_channels mod 2) 1 then
    rbind (npml_at NPML 0) (fun p0 =>
    rbind (py_div (4 * spc + 2 * L * IZR num_channels + gap * IZR num_channels) dl) (fun qx =>
    rbind (py_div (beta * lambda0) dl) (fun qy =>
    let des_list := List.map (fun i => slab gap L (INR i * (gap + L))) (List.seq 0 (Z.to_nat (num_channels / 2 + 1))) in
    build (2 * p0 + py_int qx) (py_int qy) dl des_list des_list eps_start 1)))
  else Raise ValueError.
