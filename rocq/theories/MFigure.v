(** Model of data/plot_generator.py and data/TOC_generator.py: the figures of a stored device.
    A figure is the data handed to matplotlib by pcolormesh, contour and plot.  Labels, arrows,
    scale bars and colours are left out, and so is what matplotlib makes of the data (the
    logarithmic colour scale, limits of the axes, the file).  The imports of the two scripts
    (fdfdpy, structures) are taken to be angler's Simulation and angler/structures.py. *)
From Coq Require Import Reals Lra Lia List ZArith Arith Bool String.
From Coquelicot Require Import Coquelicot.
From Verif Require Import Base Linear MCore MSim MFilter MOpt MMode MStruct MDevice MPlot.
Import ListNotations.
Local Open Scope string_scope.

(** ax.pcolormesh(x, y, c, norm=LogNorm(vmin, vmax)) and ax.contour(x, y, z) on the same axes *)
Record mesh := mkMesh { ms_x : list R; ms_y : list R; ms_data : nd R; ms_limits : option (R * R); ms_outline : option (nd R) }.
(** ax.plot(x, y) *)
Record line := mkLine { ln_x : list R; ln_y : list (option R) }.
(** the six axes of the figures *)
Record figure := mkFig { f_drawing : mesh; f_eps : mesh; f_lin : mesh; f_nl : mesh; f_obj : list line; f_power : list line }.

(** plot_generator.py:55-60, pad_array.  np.vstack([pad.T, array.T, pad.T]): the result has
    Ny + 2 padding rows of Nx values. *)
Definition pad_array (a : nd R) (padding : nat) (val : R) : nd R :=
  let Nx := nd_nx a in let Ny := nd_ny a in
  mkNd (padding + Ny + padding) Nx (fun k =>
    let r := (k / Nx)%nat in let c := (k mod Nx)%nat in
    if (Nat.leb padding r && Nat.ltb r (padding + Ny))%bool then nd_at (nd_T a) (r - padding) c else val).
(** plot_generator.py:62-67, pad_list: only the length of the list is used *)
Definition pad_list (ls : list R) (padding : nat) (dl : R) : list R :=
  let N_new := (List.length ls + 2 * padding)%nat in
  List.map (fun l => dl * (INR l - INR N_new / 2))%R (List.seq 0 N_new).
(** np.flipud *)
Definition flipud {T} (a : nd T) : nd T :=
  mkNd (nd_nx a) (nd_ny a) (fun k => nd_at a (nd_nx a - 1 - k / nd_ny a) (k mod nd_ny a)).

(** matplotlib's check of pcolormesh: as many coordinates as rows and columns, or one more *)
Definition pcolormesh (x y : list R) (c : nd R) (lim : option (R * R)) : res mesh :=
  let fits n k := (Nat.eqb k n || Nat.eqb (k + 1) n)%bool in
  if (fits (List.length x) (nd_ny c) && fits (List.length y) (nd_nx c))%bool then Ok (mkMesh x y c lim None) else Raise TypeError.
(** matplotlib's check of contour: as many coordinates as rows and columns, at least two of each *)
Definition contour (z : nd R) (m : mesh) : res mesh :=
  if (Nat.eqb (List.length (ms_x m)) (nd_ny z) && Nat.eqb (List.length (ms_y m)) (nd_nx z) &&
      Nat.leb 2 (nd_nx z) && Nat.leb 2 (nd_ny z))%bool
  then Ok (mkMesh (ms_x m) (ms_y m) (ms_data m) (ms_limits m) (Some z)) else Raise TypeError.
(** ax.plot: ValueError when the lengths differ *)
Definition plot (x : list R) (y : list (option R)) : res line :=
  if Nat.eqb (List.length x) (List.length y) then Ok (mkLine x y) else Raise ValueError.

(** attributes of D: a list, an integer list, an array of the shape of the simulation *)
Definition getlist (name : string) : St device (list R) :=
  v <- getattr name ;; lift (match v with VList l => Ok l | _ => Raise TypeError end).
Definition getints (name : string) : St device (list Z) :=
  v <- getattr name ;; lift (match v with VInts l => Ok l | _ => Raise TypeError end).
(** np.abs(D.Ez); np.abs(None) raises TypeError *)
Definition get_abs (name : string) : St device (nd R) :=
  v <- getattr name ;; d <- getS ;;
  lift (match v with
        | VField (Some F) => Ok (mkNd (s_Nx (dv_sim d)) (s_Ny (dv_sim d)) (fun k => Cmod (F k)))
        | _ => Raise TypeError end).
(** E / np.sqrt(D.W_in); the root of a negative number is nan and division by 0 gives inf: the model stops *)
Definition over_root_W_in (E : nd R) : St device (nd R) :=
  v <- getattr "W_in" ;;
  lift (match v with
        | VNum W => if Rlt_dec 0 W then Ok (nd_map (fun x => x / sqrt W)%R E) else Raise NotRepresentable
        | _ => Raise TypeError end).
(** D.transmissions[p] *)
Definition transmission (p : nat) : St device (list (option R)) :=
  v <- getattr "transmissions" ;;
  lift (match v with VTable t => match List.nth_error t p with Some l => Ok l | None => Raise IndexError end | _ => Raise TypeError end).

(** the axes of the objective, 271-273: iterations 1, 2, ... *)
Definition objective_axes : St device (list line) :=
  d <- getS ;;
  let l := o_objs (dv_opt d) in
  p <- lift (plot (List.map INR (List.seq 1 (List.length l))) (List.map Some l)) ;; ret [p].
(** ax_power.plot(D.powers, D.transmissions[p]), 292 *)
Definition power_line (p : nat) : St device line :=
  x <- getlist "powers" ;; t <- transmission p ;; lift (plot x t).
(** ax_power.plot(2*[D.W_in], [0, 1]), 293 *)
Definition dashed : St device line :=
  W <- getnum "W_in" ;; lift (plot [W; W] [Some 0%R; Some 1%R]).

(** plot_generator.py:76-308, plot_two_port *)
Definition plot_two_port : St device figure :=
  L <- getnum "L" ;; H <- getnum "H" ;; w <- getnum "w" ;; l <- getnum "l" ;; spc <- getnum "spc" ;; dl <- getnum "dl" ;;
  NPML <- getints "NPML" ;; eps_m <- getnum "eps_m" ;;
  st <- lift (two_port L H w l spc dl NPML eps_m) ;; (* 90 *)
  let eps_disp := pad_array (fst st) 50 1 in
  yr <- getlist "y_range" ;;
  let y_range := pad_list yr 50 dl in (* 94 *)
  x_range <- getlist "x_range" ;;
  m1 <- lift (pcolormesh x_range y_range eps_disp None) ;; (* 95 *)
  d <- getS ;;
  let eps_final := pad_array (s_eps (dv_sim d)) 50 1 in (* 165 *)
  m2 <- lift (pcolormesh x_range y_range eps_final None) ;;
  E <- get_abs "Ez" ;; (* 197-199 *)
  E_lin <- over_root_W_in (pad_array E 50 (1 / 10 ^ 3)) ;;
  mx <- lift (nd_max E_lin) ;;
  let vmax := (mx / 1.5)%R in (* 202 *)
  m3 <- lift (pcolormesh x_range y_range E_lin (Some (3%R, vmax))) ;;
  m3 <- lift (contour eps_final m3) ;;
  E <- get_abs "Ez_nl" ;; (* 235-237 *)
  E_nl <- over_root_W_in (pad_array E 50 (1 / 10 ^ 3)) ;;
  m4 <- lift (pcolormesh x_range y_range E_nl (Some (3%R, vmax))) ;; (* 241: vmax of the linear fields *)
  m4 <- lift (contour eps_final m4) ;;
  ob <- objective_axes ;;
  l0 <- getnum "lambda0" ;; lift (py_div (3 * 10 ^ 8) l0) ;;; (* 278 *)
  getlist "freqs" ;;; getattr "objs" ;;; (* 279-280 *)
  p <- power_line 0 ;; q <- dashed ;;
  ret (mkFig m1 m2 m3 m4 ob [p; q]).

(** a call of structures.three_port with positional arguments: nine or ten are needed *)
Definition call_three_port (args : list pyval) : res (nd R * nd R) :=
  let num v := as_num v in
  match args with
  | L :: H :: w :: dd :: l :: spc :: dl :: NPML :: eps_start :: more =>
      match more with
      | [] | [_] =>
          rbind (num L) (fun L => rbind (num H) (fun H => rbind (num w) (fun w => rbind (num dd) (fun dd =>
          rbind (num l) (fun l => rbind (num spc) (fun spc => rbind (num dl) (fun dl =>
          rbind (match NPML with VInts n => Ok n | _ => Raise TypeError end) (fun n =>
          rbind (num eps_start) (fun es =>
          rbind (match more with [b] => num b | _ => Ok 1%R end) (fun eb =>
            three_port L H w dd l spc dl n es eb))))))))))
      | _ => Raise TypeError
      end
  | _ => Raise TypeError
  end.
(** plot_generator.py:315-511, plot_three_port *)
Definition plot_three_port : St device figure :=
  L <- getattr "L" ;; H <- getattr "H" ;; w <- getattr "w" ;; l <- getattr "l" ;; spc <- getattr "spc" ;; dl <- getattr "dl" ;;
  NPML <- getattr "NPML" ;; eps_m <- getattr "eps_m" ;;
  st <- lift (call_three_port [L; H; w; l; spc; dl; NPML; eps_m]) ;; (* 326 *)
  x_range <- getlist "x_range" ;; y_range <- getlist "y_range" ;;
  m1 <- lift (pcolormesh x_range y_range (nd_T (fst st)) None) ;; (* 329 *)
  d <- getS ;;
  let eps_final := nd_T (s_eps (dv_sim d)) in
  m2 <- lift (pcolormesh x_range y_range eps_final None) ;; (* 398 *)
  E <- get_abs "Ez" ;;
  let E_lin := nd_T E in
  mx <- lift (nd_max E_lin) ;;
  m3 <- lift (pcolormesh x_range y_range E_lin (Some (3%R, mx))) ;; m3 <- lift (contour eps_final m3) ;; (* 431, 434 *)
  E <- get_abs "Ez_nl" ;;
  let E_nl := nd_T E in
  mx <- lift (nd_max E_nl) ;;
  m4 <- lift (pcolormesh x_range y_range E_nl (Some (3%R, mx))) ;; m4 <- lift (contour eps_final m4) ;; (* 465, 468 *)
  ob <- objective_axes ;;
  p <- power_line 0 ;; q <- power_line 1 ;; (* 502-503 *)
  ret (mkFig m1 m2 m3 m4 ob [p; q]).

(** the panel of the linear or nonlinear fields of plot_ortho_port, 644-645, 680-681 *)
Definition ortho_field (name : string) : St device (nd R) :=
  E <- get_abs name ;; over_root_W_in (flipud (nd_T E)).
(** plot_generator.py:522-734, plot_ortho_port *)
Definition plot_ortho_port : St device figure :=
  L <- getnum "L" ;; L2 <- getnum "L2" ;; H <- getnum "H" ;; H2 <- getnum "H2" ;; w <- getnum "w" ;; l <- getnum "l" ;; dl <- getnum "dl" ;;
  NPML <- getints "NPML" ;; eps_m <- getnum "eps_m" ;;
  st <- lift (ortho_port L L2 H H2 w l dl NPML eps_m) ;; (* 530 *)
  x_range <- getlist "x_range" ;; y_range <- getlist "y_range" ;;
  m1 <- lift (pcolormesh x_range y_range (flipud (nd_T (fst st))) None) ;; (* 542-545 *)
  d <- getS ;;
  let eps_final := flipud (nd_T (s_eps (dv_sim d))) in (* 613 *)
  m2 <- lift (pcolormesh x_range y_range eps_final None) ;;
  E_lin <- ortho_field "Ez" ;;
  mx <- lift (nd_max E_lin) ;;
  let vmax := (mx / 1.5)%R in (* 648 *)
  m3 <- lift (pcolormesh x_range y_range E_lin (Some (8%R, vmax))) ;; m3 <- lift (contour eps_final m3) ;;
  E_nl <- ortho_field "Ez_nl" ;;
  m4 <- lift (pcolormesh x_range y_range E_nl (Some (8%R, vmax))) ;; m4 <- lift (contour eps_final m4) ;;
  ob <- objective_axes ;;
  p <- power_line 0 ;; q <- power_line 1 ;; r <- dashed ;; (* 722-724 *)
  ret (mkFig m1 m2 m3 m4 ob [p; q; r]).

(** plot_generator.py:42-53, plot_Device *)
Definition plot_Device : St device figure :=
  t <- get_type ;;
  if String.eqb t "two_port" then plot_two_port
  else if String.eqb t "three_port" then plot_three_port
  else if String.eqb t "ortho_port" then plot_ortho_port
  else raise ValueError.

(** TOC_generator.py:53-145, plot_ortho_port of the graphical abstract, up to line 80, which reads the
    name eps_final that neither the function nor the module binds *)
Definition toc_ortho_port : St device figure :=
  L <- getnum "L" ;; L2 <- getnum "L2" ;; H <- getnum "H" ;; H2 <- getnum "H2" ;; w <- getnum "w" ;; l <- getnum "l" ;; dl <- getnum "dl" ;;
  NPML <- getints "NPML" ;; eps_m <- getnum "eps_m" ;;
  lift (ortho_port L L2 H H2 w l dl NPML eps_m) ;;; (* 61 *)
  x_range <- getlist "x_range" ;; y_range <- getlist "y_range" ;;
  E_lin <- ortho_field "Ez" ;; (* 72-73 *)
  mx <- lift (nd_max E_lin) ;;
  lift (pcolormesh x_range y_range E_lin (Some (8%R, mx / 1.5)%R)) ;;; (* 77 *)
  raise NameError. (* 80 *)
(** TOC_generator.py:29-40, plot_Device: plot_two_port and plot_three_port are not defined there *)
Definition toc_Device : St device figure :=
  t <- get_type ;;
  if String.eqb t "two_port" then raise NameError
  else if String.eqb t "three_port" then raise NameError
  else if String.eqb t "ortho_port" then toc_ortho_port
  else raise ValueError.
