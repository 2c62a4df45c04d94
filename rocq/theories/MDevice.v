(** Model of data/device_saver.py, class Device.  Printing, plots (matplotlib) and warnings
    are left out; they do not change the object. *)
From Coq Require Import Reals Lra Lia List ZArith Arith Bool String.
From Coquelicot Require Import Coquelicot.
From Verif Require Import Base Linear MCore MSim MFilter MOpt MMode MStruct.
Import ListNotations.
Local Open Scope string_scope.

(** values of the attributes.  [VQuot None] is a float64 quotient that is inf or nan *)
Inductive pyval : Type :=
| VNone | VNum (x : R) | VInt (z : Z) | VInts (l : list Z) | VStr (s : string) | VBool (b : bool)
| VQuot (q : option R) | VList (l : list R) | VTable (t : list (list (option R)))
| VField (f : option vec) | VArray (a : rvec).

(** the instance: device_saver.py:39-40 two deep copies.  The copied optimization has its own
    copy [dv_osim] of the simulation: the two calls of deepcopy share nothing.  The other
    attributes are in [dv_dict]. *)
Record device := mkDev { dv_sim : sim; dv_opt : opt; dv_osim : sim; dv_dict : string -> option pyval }.

(** self.name = v *)
Definition setattr (name : string) (v : pyval) : St device unit :=
  modS (fun d => mkDev (dv_sim d) (dv_opt d) (dv_osim d) (fun k => if String.eqb k name then Some v else dv_dict d k)).
(** self.name *)
Definition getattr (name : string) : St device pyval := fun d =>
  match dv_dict d name with Some v => (d, Ok v) | None => (d, Raise AttributeError) end.
(** use as a number, as an integer list *)
Definition as_num (v : pyval) : res R :=
  match v with VNum x => Ok x | VInt z => Ok (IZR z) | _ => Raise TypeError end.
Definition getnum (name : string) : St device R := v <- getattr name ;; lift (as_num v).
Definition getint (name : string) : St device Z :=
  v <- getattr name ;; lift (match v with VInt z => Ok z | _ => Raise TypeError end).
(** self.NPML[i] *)
Definition getitem (name : string) (i : nat) : St device Z :=
  v <- getattr name ;;
  lift (match v with
        | VInts l => match List.nth_error l i with Some z => Ok z | None => Raise IndexError end
        | _ => Raise TypeError end).
(** a method of self.simulation *)
Definition on_sim {A} (m : St sim A) : St device A := fun d =>
  let '(s', r) := m (dv_sim d) in (mkDev s' (dv_opt d) (dv_osim d) (dv_dict d), r).
(** a method of self.optimization *)
Definition on_opt {A} (m : St (opt * sim) A) : St device A := fun d =>
  let '((o', s'), r) := m (dv_opt d, dv_osim d) in (mkDev (dv_sim d) o' s' (dv_dict d), r).

Definition no_attr : string -> option pyval := fun _ => None.

(** device_saver.py:33-53, __init__(simulation, optimization); [s] is the simulation given,
    [(o, so)] the optimization given and its simulation *)
Definition Device (e : env) (s : sim) (o : opt) (so : sim) : res device :=
  let d0 := mkDev s o so no_attr in
  match (setattr "L0" (VNum (s_L0 s)) ;;; (* 41 *)
         on_sim (solve_fields e false false) ;;; (* 45 *)
         on_sim (solve_fields_nl_default e) ;;; (* 46 *)
         d <- getS ;;
         setattr "Ez" (VField (s_fields (dv_sim d) Ez)) ;;; (* 47 *)
         setattr "Ez_nl" (VField (s_fields_nl (dv_sim d) Ez)) ;;; (* 48 *)
         setattr "are_parameters_set" (VBool false) ;;; (* 51-53 *)
         setattr "is_geometry_set" (VBool false) ;;;
         setattr "is_data_generated" (VBool false)) d0 with
  | (d, Ok _) => Ok d
  | (_, Raise x) => Raise x
  end.

(** np.linspace(-n/2*dl, n/2*dl, n) *)
Definition dev_range (n : nat) (dl : R) : list R :=
  List.map (linspace (- INR n / 2 * dl) (INR n / 2 * dl) n) (List.seq 0 n).

(** device_saver.py:55-77 *)
Definition set_parameters (lambda0 dl : R) (NPML : list Z) (chi3 eps_m source_amp : R) : St device unit :=
  setattr "lambda0" (VNum lambda0) ;;;
  om <- lift (py_div (2 * PI * (3 * 10 ^ 8)) lambda0) ;; (* 62-63 *)
  setattr "omega" (VNum om) ;;;
  setattr "dl" (VNum dl) ;;;
  setattr "NPML" (VInts NPML) ;;;
  setattr "chi3" (VNum chi3) ;;;
  setattr "eps_m" (VNum eps_m) ;;;
  setattr "source_amp" (VNum source_amp) ;;;
  q <- lift (py_div lambda0 dl) ;; (* 71 *)
  L0 <- getnum "L0" ;;
  g <- lift (py_div q L0) ;;
  setattr "grids_per_lamda" (VNum g) ;;;
  f <- getattr "Ez" ;;
  match f with
  | VField (Some _) => (* the array has the shape of the simulation *)
      d <- getS ;;
      let Nx := s_Nx (dv_sim d) in let Ny := s_Ny (dv_sim d) in
      setattr "Nx" (VInt (Z.of_nat Nx)) ;;; setattr "Ny" (VInt (Z.of_nat Ny)) ;;; (* 72 *)
      setattr "nx" (VInt (Z.of_nat (Nx / 2))) ;;; setattr "ny" (VInt (Z.of_nat (Ny / 2))) ;;; (* 73 *)
      setattr "x_range" (VList (dev_range Nx dl)) ;;; (* 74-75 *)
      setattr "y_range" (VList (dev_range Ny dl)) ;;;
      setattr "are_parameters_set" (VBool true)
  | _ => raise AttributeError (* None.shape *)
  end.

(** tuple unpacking: nothing is stored when the lengths differ *)
Fixpoint unpack (names : list string) (vs : list pyval) : option (St device unit) :=
  match names, vs with
  | [], [] => Some (ret tt)
  | n :: ns, v :: vs => match unpack ns vs with Some k => Some (setattr n v ;;; k) | None => None end
  | _, _ => None
  end.
(** device_saver.py:87-92 *)
Definition geometry_names (structure_type : string) : option (list string) :=
  if String.eqb structure_type "three_port" then Some ["L"; "H"; "w"; "d"; "l"; "spc"; "dl"; "NPML"; "eps_start"]
  else if String.eqb structure_type "two_port" then Some ["L"; "H"; "w"; "l"; "spc"; "dl"; "NPML"; "eps_start"]
  else if String.eqb structure_type "ortho_port" then Some ["L"; "L2"; "H"; "H2"; "w"; "l"; "dl"; "NPML"; "eps_start"]
  else None.
(** device_saver.py:79-97 *)
Definition set_geometry (structure_type : string) (params : list pyval) : St device unit :=
  match geometry_names structure_type with
  | None => raise ValueError (* 94 *)
  | Some names =>
      match unpack names params with
      | None => raise ValueError
      | Some k => k ;;; setattr "structure_type" (VStr structure_type) ;;; setattr "is_geometry_set" (VBool true)
      end
  end.

(** int(self.a/k/self.dl) *)
Definition pixels (a : string) (k : R) : St device Z :=
  x <- getnum a ;; dl <- getnum "dl" ;; q <- lift (py_div (x / k) dl) ;; ret (py_int q).
(** int(2*self.l/3/self.dl), line 141 *)
Definition pixels23 (a : string) : St device Z :=
  x <- getnum a ;; dl <- getnum "dl" ;; q <- lift (py_div (2 * x / 3) dl) ;; ret (py_int q).
(** -self.NPML[i]-int(self.l/2/self.dl) *)
Definition far (i : nat) : St device Z := n <- getitem "NPML" i ;; p <- pixels "l" 2 ;; ret (- n - p)%Z.
(** int(self.Ny/2) *)
Definition half_Ny : St device Z := x <- getnum "Ny" ;; ret (py_int (x / 2)).

(** the arguments (direction, center, width) of the calls of flux_probe *)
Definition args_two_out : St device (string * (Z * Z) * Z) := (* 140, 146, 230 *)
  c <- far 0 ;; y <- getint "ny" ;; w <- half_Ny ;; ret ("x", (c, y), w).
Definition args_two_in : St device (string * (Z * Z) * Z) := (* 141, 147 *)
  n <- getitem "NPML" 0 ;; p <- pixels23 "l" ;; y <- getint "ny" ;; w <- half_Ny ;; ret ("x", (n + p, y)%Z, w).
Definition args_three (up : bool) : St device (string * (Z * Z) * Z) := (* 160-165, 235-236 *)
  c <- far 0 ;; y <- getint "ny" ;; h <- pixels "d" 2 ;; w <- pixels "H" 2 ;;
  ret ("x", (c, if up then y + h else y - h)%Z, w).
Definition args_ortho_right : St device (string * (Z * Z) * Z) := (* 187, 191, 241 *)
  c <- far 0 ;; y <- getint "ny" ;; w <- pixels "H" 2 ;; ret ("x", (c, y), w).
Definition args_ortho_top : St device (string * (Z * Z) * Z) := (* 188, 192, 242 *)
  x <- getint "nx" ;; c <- far 1 ;; w <- pixels "H" 2 ;; ret ("y", (x, c), w).

(** self.name = self.simulation.flux_probe( args , nl=nl) *)
Definition probe_to (name : string) (args : St device (string * (Z * Z) * Z)) (nl : bool) : St device R :=
  a <- args ;; d <- getS ;;
  w <- lift (flux_probe (fst (fst a)) (snd (fst a)) (snd a) nl (dv_sim d)) ;;
  setattr name (VNum w) ;;; ret w.
(** self.W_in = self.simulation.W_in, lines 136, 156, 183 *)
Definition take_W_in : St device unit :=
  d <- getS ;;
  match s_W_in (dv_sim d) with
  | Absent => raise AttributeError
  | PyNone => setattr "W_in" VNone
  | Val W => setattr "W_in" (VNum W)
  end.
(** w / self.W_in; W_in is a float64 or None *)
Definition over_W_in (w : R) : St device (option R) :=
  v <- getattr "W_in" ;;
  lift (match v with VNum W => Ok (ratio w W) | _ => Raise TypeError end).

(** device_saver.py:133-152 *)
Definition calc_trans_two : St device unit :=
  take_W_in ;;;
  w <- probe_to "W_out_lin" args_two_out false ;;
  probe_to "W_in_lin" args_two_in false ;;;
  t <- over_W_in w ;; setattr "T_lin" (VQuot t) ;;;
  w <- probe_to "W_out_nl" args_two_out true ;;
  probe_to "W_in_nl" args_two_in true ;;;
  t <- over_W_in w ;; setattr "T_nl" (VQuot t).
(** device_saver.py:154-174 *)
Definition calc_trans_three : St device unit :=
  take_W_in ;;;
  tl <- probe_to "W_top_lin" (args_three true) false ;;
  bl <- probe_to "W_bot_lin" (args_three false) false ;;
  tn <- probe_to "W_top_nl" (args_three true) true ;;
  bn <- probe_to "W_bot_nl" (args_three false) true ;;
  q1 <- over_W_in tl ;; q2 <- over_W_in tn ;; q3 <- over_W_in bl ;; q4 <- over_W_in bn ;;
  setattr "S" (VTable [[q1; q2]; [q3; q4]]). (* 173-174 *)
(** device_saver.py:181-201 *)
Definition calc_trans_ortho : St device unit :=
  take_W_in ;;;
  rl <- probe_to "W_right_lin" args_ortho_right false ;;
  tl <- probe_to "W_top_lin" args_ortho_top false ;;
  rn <- probe_to "W_right_nl" args_ortho_right true ;;
  tn <- probe_to "W_top_nl" args_ortho_top true ;;
  q1 <- over_W_in tl ;; q2 <- over_W_in rl ;; q3 <- over_W_in tn ;; q4 <- over_W_in rn ;;
  setattr "S" (VTable [[q1; q2]; [q3; q4]]). (* 200-201 *)

(** self.structure_type, always a string *)
Definition get_type : St device string :=
  v <- getattr "structure_type" ;; ret (match v with VStr s => s | _ => "" end).
(** device_saver.py:123-131 *)
Definition calc_transmissions : St device unit :=
  t <- get_type ;;
  if String.eqb t "two_port" then calc_trans_two
  else if String.eqb t "three_port" then calc_trans_three
  else if String.eqb t "ortho_port" then calc_trans_ortho
  else ret tt.

(** device_saver.py:118-121 *)
Definition dev_index_shift (e : env) : St device unit :=
  a <- on_sim (compute_index_shift e) ;; setattr "index_shift" (VArray a).

(** device_saver.py:208-224 *)
Definition freq_scan (e : env) (Nf : nat) : St device unit :=
  r <- on_opt (scan_frequency e Nf (1 / 400)) ;; (* 211 *)
  let '(freqs, objs, FWHM) := r in
  setattr "freqs" (VList freqs) ;;; setattr "objs" (VList objs) ;;; setattr "FWHM" (VNum FWHM) ;;;
  om <- getnum "omega" ;;
  setattr "Q" (VQuot (ratio (om / 2 / PI) FWHM)). (* 216 *)

(** lambda simulation: simulation.flux_probe( args , nl=True): the attributes of the device are
    read when the probe is called; the device is not changed during the scan *)
Definition probe_of (d : device) (args : St device (string * (Z * Z) * Z)) : St sim R := fun s =>
  match snd (args d) with
  | Ok a => (s, flux_probe (fst (fst a)) (snd (fst a)) (snd a) true s)
  | Raise x => (s, Raise x)
  end.
(** the probes of the three kinds of structure, lines 229-243 *)
Definition scan_args (t : string) : option (list (St device (string * (Z * Z) * Z))) :=
  if String.eqb t "two_port" then Some [args_two_out]
  else if String.eqb t "three_port" then Some [args_three true; args_three false]
  else if String.eqb t "ortho_port" then Some [args_ortho_right; args_ortho_top]
  else None.
(** device_saver.py:226-253 *)
Definition power_scan (e : env) (Np : nat) (s_min s_max : R) : St device unit :=
  t <- get_type ;;
  match scan_args t with
  | None => ret tt
  | Some args =>
      d <- getS ;;
      r <- on_opt (scan_power e (Some (List.map (probe_of d) args)) Np s_min s_max "hybrid") ;; (* 247 *)
      setattr "powers" (VList (fst r)) ;;; setattr "transmissions" (VTable (snd r))
  end.

(** device_saver.py:99-116 *)
Definition generate_data (e : env) (Nf Np : nat) (s_min s_max : R) : St device unit :=
  dev_index_shift e ;;;
  calc_transmissions ;;;
  freq_scan e Nf ;;;
  power_scan e Np s_min s_max ;;;
  setattr "is_data_generated" (VBool true).
