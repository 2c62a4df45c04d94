(** Model of Simulation.flux_probe (angler/simulation.py), angler/source/mode.py and
    Optimization.scan_power (angler/optimization.py). *)
From Coq Require Import Reals Lra Lia List ZArith Arith Bool String.
From Coquelicot Require Import Coquelicot.
From Verif Require Import Base Linear MCore MSim MFilter MOpt.
Import ListNotations.
Local Open Scope string_scope.

(* ------------------------------------------------------------------ *)
(** * numpy slices and broadcasting *)

(** the bound [i] of a python slice on an axis with N entries *)
Definition slice_bound (N : nat) (i : Z) : nat :=
  Z.to_nat (if Z.ltb i 0 then i + Z.of_nat N else Z.min i (Z.of_nat N))%Z.
(** a[i0:i1, j0:j1] *)
Definition nd_slice {T} (a : nd T) (i0 i1 j0 j1 : Z) : nd T :=
  let r0 := slice_bound (nd_nx a) i0 in
  let c0 := slice_bound (nd_ny a) j0 in
  let m := (slice_bound (nd_ny a) j1 - c0)%nat in
  mkNd (slice_bound (nd_nx a) i1 - r0) m (fun k => nd_at a (r0 + k / m) (c0 + k mod m)).
(** a[:-1, :-1] *)
Definition nd_drop_last {T} (a : nd T) : nd T := nd_slice a 0 (-1) 0 (-1).
(** grid_average on a two-dimensional array, linalg.py:19-25 *)
Definition nd_average (w : axis) (a : nd C) : nd C :=
  mkNd (nd_nx a) (nd_ny a) (grid_average w (nd_nx a) (nd_ny a) (nd_buf a)).

(** length of a broadcast axis; None: operands could not be broadcast *)
Definition bdim (n m : nat) : option nat :=
  if Nat.eqb n m then Some n else if Nat.eqb n 1 then Some m else if Nat.eqb m 1 then Some n else None.
Definition bidx (n i : nat) : nat := if Nat.eqb n 1 then O else i.
(** elementwise operation of two arrays *)
Definition nd_zip {T U V} (f : T -> U -> V) (a : nd T) (b : nd U) : res (nd V) :=
  match bdim (nd_nx a) (nd_nx b), bdim (nd_ny a) (nd_ny b) with
  | Some n, Some m =>
      Ok (mkNd n m (fun k => f (nd_at a (bidx (nd_nx a) (k / m)) (bidx (nd_ny a) (k mod m)))
                               (nd_at b (bidx (nd_nx b) (k / m)) (bidx (nd_ny b) (k mod m)))))
  | _, _ => Raise ValueError
  end.
Definition nd_sum (a : nd R) : R := rsum (nd_size a) (nd_buf a).
(** a[i0:i1, j0:j1] = v *)
Definition nd_assign {T} (a : nd T) (i0 i1 j0 j1 : Z) (v : nd T) : res (nd T) :=
  let r0 := slice_bound (nd_nx a) i0 in let r1 := slice_bound (nd_nx a) i1 in
  let c0 := slice_bound (nd_ny a) j0 in let c1 := slice_bound (nd_ny a) j1 in
  if ((Nat.eqb (nd_nx v) (r1 - r0) || Nat.eqb (nd_nx v) 1) &&
      (Nat.eqb (nd_ny v) (c1 - c0) || Nat.eqb (nd_ny v) 1))%bool
  then Ok (mkNd (nd_nx a) (nd_ny a) (fun k =>
         let i := (k / nd_ny a)%nat in let j := (k mod nd_ny a)%nat in
         if (Nat.leb r0 i && Nat.ltb i r1 && Nat.leb c0 j && Nat.ltb j c1)%bool
         then nd_at v (bidx (nd_nx v) (i - r0)) (bidx (nd_ny v) (j - c0))
         else nd_buf a k))
  else Raise ValueError.

(* ------------------------------------------------------------------ *)
(** * Simulation.flux_probe *)

(** simulation.py:253-260 and mode.py:65-72, [inds_x], [inds_y]; center and width are
    integers, int() truncates towards zero *)
Definition line_inds (dir : string) (center : Z * Z) (width : Z) : res (Z * Z * Z * Z) :=
  if String.eqb dir "x" then
    Ok (fst center, (fst center + 1)%Z, Z.quot (2 * snd center - width) 2, Z.quot (2 * snd center + width) 2)
  else if String.eqb dir "y" then
    Ok (Z.quot (2 * fst center - width) 2, Z.quot (2 * fst center + width) 2, snd center, (snd center + 1)%Z)
  else Raise ValueError.

(** simulation.py:277-282 / 299-304: the power density; [z] is the averaged field *)
Definition poynting (p : pol) (x_normal : bool) (z f : C) : R :=
  match p, x_normal with
  | PolEz, true => (- 1 / 2 * Re (z * Cconj f)%C)%R
  | PolEz, false => (1 / 2 * Re (z * Cconj f)%C)%R
  | PolHz, true => (1 / 2 * Re (f * Cconj z)%C)%R
  | PolHz, false => (- 1 / 2 * Re (f * Cconj z)%C)%R
  end.

(** simulation.py:249-304, flux_probe(direction_normal, center, width, nl).  Slicing
    None is a TypeError. *)
Definition flux_probe (dir : string) (center : Z * Z) (width : Z) (nl : bool) (s : sim) : res R :=
  match line_inds dir center width with
  | Raise x => Raise x
  | Ok (i0, i1, j0, j1) =>
      let x_normal := String.eqb dir "x" in
      let fd := if nl then s_fields_nl s else s_fields s in
      match fd (pol_comp (s_pol s)), fd (if x_normal then comp2 (s_pol s) else comp1 (s_pol s)) with
      | Some Zf, Some Ff =>
          let arr := fun v : vec => mkNd (s_Nx s) (s_Ny s) v in
          let Zavg := nd_drop_last (nd_average (if x_normal then AxX else AxY)
                        (nd_slice (arr Zf) i0 (i1 + 1) j0 (j1 + 1))) in (* 273-274, 295-296 *)
          match nd_zip (poynting (s_pol s) x_normal) Zavg (nd_slice (arr Ff) i0 i1 j0 j1) with
          | Raise x => Raise x
          | Ok P => Ok (s_dl s * nd_sum P)%R
          end
      | _, _ => Raise TypeError
      end
  end.

(* ------------------------------------------------------------------ *)
(** * source/mode.py *)

(** np.sign of a real number *)
Definition np_sign (r : R) : R := if Rlt_dec r 0 then (-1)%R else if Rlt_dec 0 r then 1%R else 0%R.

(** mode.py:75-89, the matrix of the transverse problem on a line with N pixels;
    [eps] is the slice of the permittivity, shape (1,N) or (N,1) *)
Definition mode_matrix (s : sim) (eps : nd R) : mat :=
  let N := nd_size eps in
  let EPS := (EPSILON_0 * s_L0 s)%R in let MU := (MU_0 * s_L0 s)%R in
  let Dxb := createDws AxX Bwd (s_dl s) 1 N 1 in
  let Dxf := createDws AxX Fwd (s_dl s) 1 N 1 in
  let T_eps := spdiags (fun k => RtoC (EPS * nd_buf eps k)) in
  let eps_x := grid_average AxX (nd_nx eps) (nd_ny eps) (cvec (nd_buf eps)) in
  let T_epsxinv := spdiags (fun k => (/ (RtoC EPS * eps_x k))%C) in
  match s_pol s with
  | PolEz => mplus (mscal (RtoC (s_omega s ^ 2 * MU)) T_eps) (mm N Dxf Dxb) (* 86 *)
  | PolHz => mplus (mscal (RtoC (s_omega s ^ 2 * MU)) T_eps)
               (mm N (mm N (mm N T_eps Dxf) T_epsxinv) Dxb) (* 89 *)
  end.

(** mode.py:99-106: scaled eigenvector v, pixel k of what is written *)
Definition mode_profile (scale : R) (v : vec) (k : nat) : C :=
  let z := (v k * RtoC scale)%C in RtoC (Cmod z * np_sign (Re z)).

(** mode.py:60-106, insert_mode(simulation, destination): the destination after the
    call.  An empty line is refused (scipy, ValueError).  [e_eigs] returns the column
    order-1 of the eigenvectors (94-97) or raises. *)
Definition insert_mode (e : env) (m : mode) (s : sim) (dest : nd C) : res (nd C) :=
  match line_inds (md_normal m) (md_center m) (md_width m) with
  | Raise x => Raise x
  | Ok (i0, i1, j0, j1) =>
      let eps := nd_slice (s_eps s) i0 i1 j0 j1 in
      let N := nd_size eps in
      if Nat.eqb N 0 then Raise ValueError
      else
        let est_beta := (s_omega s * sqrt (MU_0 * s_L0 s * (EPSILON_0 * s_L0 s)) * md_neff m)%R in
        match e_eigs e N (mode_matrix s eps) (md_order m) (est_beta ^ 2)%R with
        | Raise x => Raise x
        | Ok v =>
            let val := mode_profile (md_scale m) v in
            nd_assign dest i0 i1 j0 j1
              (if String.eqb (md_normal m) "x" then mkNd 1 N val else mkNd N 1 val)
        end
  end.

(** a[i] on an axis with N entries *)
Definition py_index (N : nat) (i : Z) : res nat :=
  if (Z.leb (- Z.of_nat N) i && Z.ltb i (Z.of_nat N))%bool
  then Ok (Z.to_nat (if Z.ltb i 0 then i + Z.of_nat N else i)%Z) else Raise IndexError.

(** mode.py:29-49: the straight waveguide and the centre of the probe *)
Definition norm_structure (m : mode) (eps : nd R) : res (nd R * (Z * Z)) :=
  let eps_max := rmax (nd_size eps) (fun k => Rabs (nd_buf eps k)) in
  if String.eqb (md_normal m) "x" then
    match py_index (nd_nx eps) (fst (md_center m)) with
    | Raise x => Raise x
    | Ok i => Ok (mkNd (nd_nx eps) (nd_ny eps) (fun k =>
                    if Rlt_dec 1 (nd_at eps i (k mod nd_ny eps)) then eps_max else 1%R),
                  (Z.of_nat (nd_nx eps) - fst (md_center m), snd (md_center m))%Z)
    end
  else if String.eqb (md_normal m) "y" then
    match py_index (nd_ny eps) (snd (md_center m)) with
    | Raise x => Raise x
    | Ok j => Ok (mkNd (nd_nx eps) (nd_ny eps) (fun k =>
                    if Rlt_dec 1 (nd_at eps (k / nd_ny eps) j) then eps_max else 1%R),
                  (fst (md_center m), Z.of_nat (nd_ny eps) - snd (md_center m))%Z)
    end
  else Raise ValueError.

(** mode.py:26-58, compute_normalization: the value assigned to simulation.W_in.  The
    copy keeps the source array of the simulation (36). *)
Definition compute_normalization (e : env) (m : mode) (s : sim) : res R :=
  match norm_structure m (s_eps s) with
  | Raise x => Raise x
  | Ok (eps, center) =>
      let s1 := set_eps eps s in (* 52 *)
      match insert_mode e m s1 (s_src s1) with (* 53 *)
      | Raise x => Raise x
      | Ok src =>
          match solve_fields e false false (upd_src src s1) with (* 54 *)
          | (_, Raise x) => Raise x
          | (s2, Ok _) => flux_probe (md_normal m) center (md_width m) false s2 (* 55 *)
          end
      end
  end.

(** mode.py:19-24, setup_src *)
Definition setup_src (e : env) (m : mode) : St sim unit := fun s =>
  match compute_normalization e m s with
  | Raise x => (s, Raise x)
  | Ok W =>
      let s1 := upd_W_in W s in
      match insert_mode e m s1 (s_src s1) with
      | Raise x => (s1, Raise x)
      | Ok src => (upd_src src s1, Ok tt)
      end
  end.

(** simulation.py:57-60, setup_modes *)
Fixpoint setup_list (e : env) (l : list mode) : St sim unit :=
  match l with
  | [] => ret tt
  | m :: t => setup_src e m ;;; setup_list e t
  end.
Definition setup_modes (e : env) : St sim unit := fun s => setup_list e (s_modes s) s.

(* ------------------------------------------------------------------ *)
(** * Optimization.scan_power *)

Definition with_scale (m : mode) (x : R) : mode :=
  mkMode (md_neff m) (md_normal m) (md_center m) (md_width m) (md_order m) x.

(** optimization.py:532, np.logspace(np.log10(s_min), np.log10(s_max), Ns)[i] *)
Definition log10 (x : R) : R := (ln x / ln 10)%R.
Definition scan_scale (s_min s_max : R) (Ns i : nat) : R := Rpower 10 (linspace (log10 s_min) (log10 s_max) Ns i).

(** optimization.py:553-569 *)
Definition scan_solve (e : env) (solver : string) : St sim unit := fun s =>
  if String.eqb solver "hybrid" then
    match solve_fields_nl e false None "born" (1 / 10 ^ 10)%R 100 s with
    | (s1, Raise x) => (s1, Raise x)
    | (s1, Ok (_, c)) =>
        match last_conv c with
        | Raise x => (s1, Raise x)
        | Ok c => if xgt c (1 / 10 ^ 10)
                  then (solve_fields_nl e false None "newton" (1 / 10 ^ 10)%R 100 ;;; ret tt) s1
                  else (s1, Ok tt)
        end
    end
  else (solve_fields_nl e false None solver (1 / 10 ^ 10)%R 100 ;;; ret tt) s.

(** optimization.py:572-574, the calls of the probes on the copy; a probe is any
    python function of the simulation (it may change it).  W_out/W_in with W_in = 0 is
    inf or nan: None. *)
Definition ratio (a b : R) : option R := if Req_EM_T b 0 then None else Some (a / b)%R.
Fixpoint run_probes (W_in : R) (probes : list (St sim R)) : St sim (list (option R)) :=
  match probes with
  | [] => ret []
  | p :: t => W <- p ;; l <- run_probes W_in t ;; ret (ratio W W_in :: l)
  end.

(** optimization.py:544-574, one pass of the loop on the deep copy; the scale of the
    first mode of the copy is set to x.  [W_in] exists after setup_src. *)
Definition scan_point (e : env) (probes : list (St sim R)) (solver : string) (x : R) (s : sim)
  : res (R * list (option R)) :=
  match s_modes s with
  | [] => Raise IndexError
  | m :: t =>
      let s1 := upd_modes (with_scale m x :: t) s in
      match setup_src e (with_scale m x) s1 with
      | (_, Raise x) => Raise x
      | (s2, Ok _) =>
          match s_W_in s2 with
          | Val W =>
              match scan_solve e solver s2 with
              | (_, Raise x) => Raise x
              | (s3, Ok _) =>
                  match run_probes W probes s3 with
                  | (_, Raise x) => Raise x
                  | (_, Ok l) => Ok (W, l)
                  end
              end
          | _ => Raise AttributeError
          end
      end
  end.

Fixpoint power_loop (e : env) (probes : list (St sim R)) (solver : string) (xs : list R)
  : St (opt * sim) (list (R * list (option R))) :=
  match xs with
  | [] => ret []
  | x :: t => fun st =>
      match scan_point e probes solver x (snd st) with
      | Raise x => (st, Raise x)
      | Ok p => (l <- power_loop e probes solver t ;; ret (p :: l)) st
      end
  end.

(** optimization.py:521-578, scan_power.  [probes] is None or a list.  Non-positive
    limits of the scan make np.log10 return nan or -inf: the model stops.  Entry
    [p] of the second result is the list of transmissions of probe p. *)
Definition scan_power (e : env) (probes : option (list (St sim R))) (Ns : nat) (s_min s_max : R) (solver : string)
  : St (opt * sim) (list R * list (list (option R))) := fun st =>
  match probes with
  | None => (st, Raise ValueError) (* 527-528 *)
  | Some ps =>
      if Rlt_dec 0 s_min then
      if Rlt_dec 0 s_max then
        match power_loop e ps solver (List.map (scan_scale s_min s_max Ns) (List.seq 0 Ns)) st with
        | (st1, Raise x) => (st1, Raise x)
        | (st1, Ok l) =>
            (st1, Ok (List.map fst l,
                      List.map (fun p => List.map (fun q => List.nth p (snd q) None) l) (List.seq 0 (List.length ps))))
        end
      else (st, Raise NotRepresentable)
      else (st, Raise NotRepresentable)
  end.
