(** Model of the pixel maps of angler/structures.py in IEEE binary64 (see MFloat.v): the
    coordinates of get_grid, the comparisons that draw the regions, and the builders two_port and
    three_port.  Every operation of the code is followed by one rounding [fl].  Not modelled:
    infinities, NaN and the sign of zero. *)
From Coq Require Import Reals Lra Lia List ZArith Arith Bool.
From Verif Require Import Base MCore MSim MStruct MFloat.
Import ListNotations.
Local Open Scope R_scope.

(** numpy.linspace(a, b, n): step = (b - a)/(n - 1); arange(n)*step + a; the last entry is set to b.
    One point: [a]. *)
Definition linspace_f (a b : R) (n i : nat) : R :=
  if Nat.leb n 1 then a else if Nat.eqb i (n - 1) then b else fl (fl (INR i * fl (fl (b - a) / INR (n - 1))) + a).
(** structures.py:15-17, get_grid: linspace(-n/2*dl, n/2*dl, n) *)
Definition grid_coord_f (n : nat) (dl : R) (i : nat) : R :=
  linspace_f (fl (fl (- INR n / 2) * dl)) (fl (fl (INR n / 2) * dl)) n i.

(** structures.py:24-40, apply_regions, as in MStruct.v with these coordinates *)
Definition apply_regions_f (reg_list : list region) (Nx Ny : nat) (dl eps_start eps_background : R) : res (nd R) :=
  match reg_list with
  | [] => Ok (mkNd Nx Ny (fun _ => eps_background))
  | _ =>
      if Nat.eqb (Nx * Ny) 0 then Raise ValueError
      else Ok (mkNd Nx Ny (fun k =>
             fold_left (fun v (reg : region) =>
                          if reg (grid_coord_f Nx dl (k / Ny)) (grid_coord_f Ny dl (k mod Ny)) then eps_start else v)
                       reg_list eps_background))
  end.
(** the end of a builder (for example structures.py:75-76); 2 - 1 and 1 - 1 are exact *)
Definition build_f (Nx Ny : Z) (dl : R) (regs design : list region) (eps_start eps_background : R) : res (nd R * nd R) :=
  rbind (grid_size Nx) (fun nx => rbind (grid_size Ny) (fun ny =>
  rbind (apply_regions_f regs nx ny dl eps_start eps_background) (fun e =>
  rbind (apply_regions_f design nx ny dl 2 1) (fun d =>
  Ok (e, mkNd (nd_nx d) (nd_ny d) (fun k => (nd_buf d k - 1)%R)))))).

(** structures.py:102: (np.abs(x) < L/2) * (np.abs(y) < H/2) *)
Definition box_f (L H : R) : region := fun x y => Rltb (Rabs x) (fl (L / 2)) && Rltb (Rabs y) (fl (H / 2)).
(** structures.py:68: (np.abs(x) < L/2) * (np.abs(y-y_mid) < H/2) *)
Definition box_mid_f (L H y_mid : R) : region := fun x y => Rltb (Rabs x) (fl (L / 2)) && Rltb (Rabs (fl (y - y_mid))) (fl (H / 2)).
(** structures.py:103: np.abs(y) < w/2 *)
Definition through_guide_f (w : R) : region := fun _ y => Rltb (Rabs y) (fl (w / 2)).
(** structures.py:69: (x < 0) * (np.abs(y-y_mid) < dl*wg_width_px/2) *)
Definition left_guide_f (y0 dl : R) (px : Z) : region := fun x y => Rltb x 0 && Rltb (Rabs (fl (y - y0))) (fl (fl (dl * IZR px) / 2)).
(** structures.py:70-71: (x > 0) * (np.abs(y-y_bot) < dl*wg_width_px/2) *)
Definition right_guide_f (y0 dl : R) (px : Z) : region := fun x y => Rltb 0 x && Rltb (Rabs (fl (y - y0))) (fl (fl (dl * IZR px) / 2)).

(** structures.py:81-108, two_port *)
Definition two_port_f (L H w l spc dl : R) (NPML : list Z) (eps_start : R) : res (nd R * nd R) :=
  rbind (npml_at NPML 0) (fun p0 => rbind (py_div (fl (fl (2 * l) + L)) dl) (fun qx =>
  rbind (npml_at NPML 1) (fun p1 => rbind (py_div (fl (H + fl (2 * spc))) dl) (fun qy =>
  build_f (2 * p0 + py_int (fl qx)) (2 * p1 + py_int (fl qy)) dl [through_guide_f w] [box_f L H] eps_start 1)))).

(** structures.py:43-78, three_port *)
Definition three_port_f (L H w d l spc dl : R) (NPML : list Z) (eps_start eps_background : R) : res (nd R * nd R) :=
  rbind (npml_at NPML 0) (fun p0 => rbind (py_div (fl (fl (2 * l) + L)) dl) (fun qx =>
  rbind (npml_at NPML 1) (fun p1 => rbind (py_div (fl (H + fl (2 * spc))) dl) (fun qy =>
  let Nx := (2 * p0 + py_int (fl qx))%Z in
  let Ny := (2 * p1 + py_int (fl qy))%Z in
  let odd := fl (fl (IZR Ny / 2) - IZR (half_f Ny)) in (* Ny/2-ny *)
  let half_d := fl (fl (d / 2) / dl) in
  let y_mid := fl (dl * IZR (py_int odd)) in
  let y_bot := fl (dl * IZR (py_int (fl (odd - half_d)))) in
  let y_top := fl (dl * IZR (py_int (fl (odd + half_d)))) in
  let px := width_px_f w dl in
  let box := box_mid_f L H y_mid in
  build_f Nx Ny dl [box; left_guide_f y_mid dl px; right_guide_f y_bot dl px; right_guide_f y_top dl px] [box] eps_start eps_background)))).
