(** Model of angler/nonlinearity.py, angler/simulation.py (class Simulation,
    except plotting and flux_probe, which is in MMode.v) and
    angler/nonlinear_solvers.py. *)
From Coq Require Import Reals Lra Lia List ZArith Arith Bool String.
From Coquelicot Require Import Coquelicot.
From Verif Require Import Base Linear MCore.
Import ListNotations.
Local Open Scope string_scope.

(** A two-dimensional numpy array: shape and C-ordered buffer. *)
Record nd (T : Type) := mkNd { nd_nx : nat; nd_ny : nat; nd_buf : nat -> T }.
Arguments mkNd {T}. Arguments nd_nx {T}. Arguments nd_ny {T}. Arguments nd_buf {T}.
Definition nd_size {T} (a : nd T) : nat := (nd_nx a * nd_ny a)%nat.
(** a[i,j] *)
Definition nd_at {T} (a : nd T) (i j : nat) : T := nd_buf a (i * nd_ny a + j)%nat.

(** an attribute that may be missing, None, or a value *)
Inductive attr (T : Type) := Absent | PyNone | Val (v : T).
Arguments Absent {T}. Arguments PyNone {T}. Arguments Val {T}.

Inductive comp := Ex | Ey | Ez | Hx | Hy | Hz.
Definition comp_eqb (a b : comp) : bool :=
  match a, b with
  | Ex, Ex | Ey, Ey | Ez, Ez | Hx, Hx | Hy, Hy | Hz, Hz => true
  | _, _ => false
  end.
Definition pol_comp (p : pol) : comp := match p with PolEz => Ez | PolHz => Hz end.

(** the dictionaries self.fields / self.fields_nl *)
Definition fdict := comp -> option vec.
Definition no_fields : fdict := fun _ => None.
Definition fset (d : fdict) (c : comp) (v : vec) : fdict :=
  fun c' => if comp_eqb c c' then Some v else d c'.

(* ------------------------------------------------------------------ *)
(** * nonlinearity.py *)

(** A constructed Nonlinearity object.  chi and nl_region are captured by the
    lambdas of lines 25-32. *)
Record nonlin := mkNonlin {
  nl_chi : R; nl_region : rvec; nl_eps_scale : bool; nl_eps_max : R }.

(** nonlinearity.py:8-39, Nonlinearity.__init__ *)
Definition Nonlinearity (chi : R) (region : rvec) (nl_type : string) (eps_scale : bool)
    (eps_max : option R) : res nonlin :=
  if String.eqb nl_type "kerr" then
    if eps_scale then
      match eps_max with
      | None => Raise AssertionError (* 21-22 *)
      | Some em => Ok (mkNonlin chi region true em)
      end
    else Ok (mkNonlin chi region false (match eps_max with Some em => em | None => 0%R end))
  else Raise AssertionError. (* 38-39 *)

(** the factor (eps_r-1)/(eps_max-1) of lines 25-26, 1 without eps_scale *)
Definition nl_scale (q : nonlin) (eps : R) : R :=
  if nl_eps_scale q then ((eps - 1) / (nl_eps_max q - 1))%R else 1%R.

(** nonlinearity.py:25 / 30, eps_nl(e, eps_r) at pixel k *)
Definition kerr_eps_nl (q : nonlin) (k : nat) (e : C) (eps : R) : R :=
  (3 * nl_chi q * nl_region q k * (Cmod e) ^ 2 * nl_scale q eps)%R.
(** nonlinearity.py:26 / 31, dnl_de *)
Definition kerr_dnl_de (q : nonlin) (k : nat) (e : C) (eps : R) : C :=
  (RtoC (3 * nl_chi q * nl_region q k) * Cconj e * RtoC (nl_scale q eps))%C.
(** nonlinearity.py:27 / 32, dnl_deps *)
Definition kerr_dnl_deps (q : nonlin) (k : nat) (e : C) (eps : R) : R :=
  if nl_eps_scale q
  then (3 * nl_chi q * nl_region q k * (Cmod e) ^ 2 * (1 / (nl_eps_max q - 1)))%R
  else 0%R.

(* ------------------------------------------------------------------ *)
(** * simulation.py *)

(** source/mode.py:9-17, the data of a mode object; centers and widths are
    integers (pixels) *)
Record mode := mkMode {
  md_neff : R; md_normal : string; md_center : Z * Z; md_width : Z; md_order : nat; md_scale : R }.

(** The attributes of a Simulation object.  [s_Anl] is absent until compute_nl
    has been called and carries its size; [s_rho], [s_W_in] are attributes that
    __init__ does not create. *)
Record sim := mkSim {
  s_L0 : R; s_omega : R; s_NPML : nat * nat; s_pol : pol; s_dl : R;
  s_Nx : nat; s_Ny : nat;
  s_src : nd C;
  s_xrange : R * R; s_yrange : R * R;
  s_eps : nd R;
  s_A : mat; s_derivs : derivs;
  s_fields : fdict; s_fields_nl : fdict;
  s_modes : list mode;
  s_nl : list nonlin;
  s_eps_nl : rvec; s_dnl_de : vec; s_dnl_deps : rvec;
  s_Anl : option (nat * mat);
  s_rho : attr rvec;
  s_W_in : attr R
}.

Definition upd_src (v : nd C) (s : sim) : sim :=
  mkSim (s_L0 s) (s_omega s) (s_NPML s) (s_pol s) (s_dl s) (s_Nx s) (s_Ny s) v (s_xrange s) (s_yrange s)
    (s_eps s) (s_A s) (s_derivs s) (s_fields s) (s_fields_nl s) (s_modes s) (s_nl s) (s_eps_nl s)
    (s_dnl_de s) (s_dnl_deps s) (s_Anl s) (s_rho s) (s_W_in s).
Definition upd_omega (w : R) (s : sim) : sim :=
  mkSim (s_L0 s) w (s_NPML s) (s_pol s) (s_dl s) (s_Nx s) (s_Ny s) (s_src s) (s_xrange s) (s_yrange s)
    (s_eps s) (s_A s) (s_derivs s) (s_fields s) (s_fields_nl s) (s_modes s) (s_nl s) (s_eps_nl s)
    (s_dnl_de s) (s_dnl_deps s) (s_Anl s) (s_rho s) (s_W_in s).
Definition upd_fields (f : fdict) (s : sim) : sim :=
  mkSim (s_L0 s) (s_omega s) (s_NPML s) (s_pol s) (s_dl s) (s_Nx s) (s_Ny s) (s_src s) (s_xrange s) (s_yrange s)
    (s_eps s) (s_A s) (s_derivs s) f (s_fields_nl s) (s_modes s) (s_nl s) (s_eps_nl s)
    (s_dnl_de s) (s_dnl_deps s) (s_Anl s) (s_rho s) (s_W_in s).
Definition upd_fields_nl (f : fdict) (s : sim) : sim :=
  mkSim (s_L0 s) (s_omega s) (s_NPML s) (s_pol s) (s_dl s) (s_Nx s) (s_Ny s) (s_src s) (s_xrange s) (s_yrange s)
    (s_eps s) (s_A s) (s_derivs s) (s_fields s) f (s_modes s) (s_nl s) (s_eps_nl s)
    (s_dnl_de s) (s_dnl_deps s) (s_Anl s) (s_rho s) (s_W_in s).
Definition upd_modes (m : list mode) (s : sim) : sim :=
  mkSim (s_L0 s) (s_omega s) (s_NPML s) (s_pol s) (s_dl s) (s_Nx s) (s_Ny s) (s_src s) (s_xrange s) (s_yrange s)
    (s_eps s) (s_A s) (s_derivs s) (s_fields s) (s_fields_nl s) m (s_nl s) (s_eps_nl s)
    (s_dnl_de s) (s_dnl_deps s) (s_Anl s) (s_rho s) (s_W_in s).
Definition upd_nl (l : list nonlin) (s : sim) : sim :=
  mkSim (s_L0 s) (s_omega s) (s_NPML s) (s_pol s) (s_dl s) (s_Nx s) (s_Ny s) (s_src s) (s_xrange s) (s_yrange s)
    (s_eps s) (s_A s) (s_derivs s) (s_fields s) (s_fields_nl s) (s_modes s) l (s_eps_nl s)
    (s_dnl_de s) (s_dnl_deps s) (s_Anl s) (s_rho s) (s_W_in s).
Definition upd_nlvals (en : rvec) (de : vec) (dp : rvec) (An : nat * mat) (s : sim) : sim :=
  mkSim (s_L0 s) (s_omega s) (s_NPML s) (s_pol s) (s_dl s) (s_Nx s) (s_Ny s) (s_src s) (s_xrange s) (s_yrange s)
    (s_eps s) (s_A s) (s_derivs s) (s_fields s) (s_fields_nl s) (s_modes s) (s_nl s) en
    de dp (Some An) (s_rho s) (s_W_in s).
Definition upd_rho (r : attr rvec) (s : sim) : sim :=
  mkSim (s_L0 s) (s_omega s) (s_NPML s) (s_pol s) (s_dl s) (s_Nx s) (s_Ny s) (s_src s) (s_xrange s) (s_yrange s)
    (s_eps s) (s_A s) (s_derivs s) (s_fields s) (s_fields_nl s) (s_modes s) (s_nl s) (s_eps_nl s)
    (s_dnl_de s) (s_dnl_deps s) (s_Anl s) r (s_W_in s).
Definition upd_W_in (w : R) (s : sim) : sim :=
  mkSim (s_L0 s) (s_omega s) (s_NPML s) (s_pol s) (s_dl s) (s_Nx s) (s_Ny s) (s_src s) (s_xrange s) (s_yrange s)
    (s_eps s) (s_A s) (s_derivs s) (s_fields s) (s_fields_nl s) (s_modes s) (s_nl s) (s_eps_nl s)
    (s_dnl_de s) (s_dnl_deps s) (s_Anl s) (s_rho s) (Val w).

(** number of unknowns *)
Definition s_M (s : sim) : nat := (s_Nx s * s_Ny s)%nat.
(** simulation permittivity as a complex vector *)
Definition s_epsC (s : sim) : vec := cvec (nd_buf (s_eps s)).

(** simulation.py:91-111, the eps_r setter, for a two-dimensional array (assigning a
    one-dimensional array after construction is not modelled).
    construct_A is called with its default averaging=True (line 104-107). *)
Definition set_eps (a : nd R) (s : sim) : sim :=
  let Nx := nd_nx a in let Ny := nd_ny a in
  let AD := construct_A (s_omega s) (s_xrange s) (s_yrange s) Nx Ny (cvec (nd_buf a))
              (s_NPML s) (s_pol s) (s_L0 s) true in
  mkSim (s_L0 s) (s_omega s) (s_NPML s) (s_pol s) (s_dl s) Nx Ny (s_src s) (s_xrange s) (s_yrange s)
    a (fst AD) (snd AD) no_fields no_fields (s_modes s) (s_nl s) (s_eps_nl s)
    (s_dnl_de s) (s_dnl_deps s) (s_Anl s) (s_rho s) (s_W_in s).

(** simulation.py:238-246, _check_inputs: [true] when all assertions pass.  NPML is
    [Some l] when it is a python list (of integers). *)
Definition check_inputs (L0 omega : R) (NPML : option (list Z)) (p : string) : bool :=
  (if Rlt_dec 0 L0 then true else false) &&
  (if Rlt_dec 0 omega then true else false) &&
  match NPML with
  | Some [a; b] => Z.leb 0 a && Z.leb 0 b
  | _ => false
  end &&
  (String.eqb p "Ez" || String.eqb p "Hz").

(** simulation.py:17-55, Simulation.__init__.  The permittivity is given with its
    shape; a one-dimensional array of length n is reshaped to (n,1) in lines 28-31,
    i.e. is [mkNd n 1 buf] here. *)
Definition Simulation (omega : R) (eps_r : nd R) (dl : R) (NPML : option (list Z)) (p : string) (L0 : R)
  : res sim :=
  if check_inputs L0 omega NPML p then
    let Nx := nd_nx eps_r in let Ny := nd_ny eps_r in
    let npml := match NPML with Some [a; b] => (Z.to_nat a, Z.to_nat b) | _ => (0, 0)%nat end in
    let po := if String.eqb p "Ez" then PolEz else PolHz in
    let s0 := mkSim L0 omega npml po dl Nx Ny (mkNd Nx Ny (fun _ => RtoC 0))
                (0%R, (INR Nx * dl)%R) (0%R, (INR Ny * dl)%R)
                eps_r (fun _ _ => RtoC 0)
                (mkDerivs (fun _ _ => RtoC 0) (fun _ _ => RtoC 0) (fun _ _ => RtoC 0) (fun _ _ => RtoC 0))
                no_fields no_fields [] [] (fun _ => 0%R) (fun _ => RtoC 0) (fun _ => 0%R)
                None Absent Absent in
    Ok (set_eps eps_r s0)
  else Raise AssertionError.

(** simulation.py:82-85, add_nl *)
Definition add_nl (chi : R) (region : rvec) (nl_type : string) (eps_scale : bool) (eps_max : option R)
  : St sim unit :=
  s <- getS ;;
  q <- lift (Nonlinearity (chi / (s_L0 s) ^ 2)%R region nl_type eps_scale eps_max) ;;
  putS (upd_nl (s_nl s ++ [q]) s).

(** simulation.py:62-67, add_mode *)
Definition add_mode (m : mode) : St sim unit := modS (fun s => upd_modes (s_modes s ++ [m]) s).

(** simulation.py:71-77: the sums over the list of nonlinearities *)
Definition sum_eps_nl (l : list nonlin) (e : vec) (eps : rvec) : rvec := fun k =>
  fold_left (fun acc q => (acc + kerr_eps_nl q k (e k) (eps k))%R) l 0%R.
Definition sum_dnl_de (l : list nonlin) (e : vec) (eps : rvec) : vec := fun k =>
  fold_left (fun acc q => (acc + kerr_dnl_de q k (e k) (eps k))%C) l (RtoC 0).
Definition sum_dnl_deps (l : list nonlin) (e : vec) (eps : rvec) : rvec := fun k =>
  fold_left (fun acc q => (acc + kerr_dnl_deps q k (e k) (eps k))%R) l 0%R.

(** simulation.py:69-80, compute_nl(e) *)
Definition compute_nl (e : vec) (s : sim) : sim :=
  let eps := nd_buf (s_eps s) in
  let en := sum_eps_nl (s_nl s) e eps in
  upd_nlvals en (sum_dnl_de (s_nl s) e eps) (sum_dnl_deps (s_nl s) e eps)
    (s_M s, spdiags (fun k => RtoC (s_omega s ^ 2 * EPSILON_0 * s_L0 s * en k)))
    s.

(** simulation.py:132-177: the other two components derived from X, with the
    permittivity [eps_tot] and the flag averaging. *)
Definition derived_fields (s : sim) (eps_tot : vec) (averaging : bool) (X : vec) : vec * vec :=
  let M := s_M s in
  let D := s_derivs s in
  match s_pol s with
  | PolHz => (* 133-148 *)
      let ex := eps_dir AxX averaging (s_L0 s) (s_Nx s) (s_Ny s) eps_tot in
      let ey := eps_dir AxY averaging (s_L0 s) (s_Nx s) (s_Ny s) eps_tot in
      (vscal (RtoC 1 / Ci / RtoC (s_omega s))%C (mv M (mm M (spdiags (fun k => (/ ey k)%C)) (Dyb D)) X),
       vscal (- RtoC 1 / Ci / RtoC (s_omega s))%C (mv M (mm M (spdiags (fun k => (/ ex k)%C)) (Dxb D)) X))
  | PolEz => (* 162-163 *)
      (vscal (- RtoC 1 / Ci / RtoC (s_omega s) / RtoC (MU_0 * s_L0 s))%C (mv M (Dyb D) X),
       vscal (RtoC 1 / Ci / RtoC (s_omega s) / RtoC (MU_0 * s_L0 s))%C (mv M (Dxb D) X))
  end.

(** names of the first two components, simulation.py:154-157, 169-172, 221-231 *)
Definition comp1 (p : pol) : comp := match p with PolEz => Hx | PolHz => Ex end.
Definition comp2 (p : pol) : comp := match p with PolEz => Hy | PolHz => Ey end.
Definition store3 (p : pol) (d : fdict) (F : vec * vec * vec) : fdict :=
  let '(a, b, c) := F in fset (fset (fset d (comp1 p) a) (comp2 p) b) (pol_comp p) c.

(** right-hand side self.src*1j*self.omega, simulation.py:122 *)
Definition rhs (s : sim) : vec := fun k => (nd_buf (s_src s) k * Ci * RtoC (s_omega s))%C.

(** simulation.py:113-177, solve_fields(include_nl, averaging).  A source array whose
    size differs from the matrix is refused by the solver / the matrix product
    (ValueError).  [solver_direct] is called with its default solver. *)
Definition solve_fields (e : env) (include_nl averaging : bool) : St sim (vec * vec * vec) := fun s =>
  let mtx : res mat :=
    if include_nl then
      match s_Anl s with
      | None => Raise AttributeError
      | Some (m, An) => if Nat.eqb m (s_M s) then Ok (mplus (s_A s) An) else Raise ValueError
      end
    else Ok (s_A s) in
  match mtx with
  | Raise x => (s, Raise x)
  | Ok A =>
      if negb (Nat.eqb (nd_size (s_src s)) (s_M s)) then (s, Raise ValueError)
      else
        match solver_direct e (s_M s) A (rhs s) (DEFAULT_SOLVER e) with
        | Raise x => (s, Raise x)
        | Ok X =>
            let eps_tot := if include_nl then (fun k => (s_epsC s k + RtoC (s_eps_nl s k))%C) else s_epsC s in
            let '(a, b) := derived_fields s eps_tot averaging X in
            ((if include_nl then s else upd_fields (store3 (s_pol s) (s_fields s) (a, b, X)) s),
             Ok (a, b, X))
        end
  end.

(* ------------------------------------------------------------------ *)
(** * nonlinear_solvers.py *)

(** nonlinear_solvers.py:46 / 99, la.norm(Fz - Fprev)/la.norm(Fz) *)
Definition convergence (n : nat) (F Fprev : vec) : xr := xdiv (nrm n (vminus F Fprev)) (nrm n F).

(** nonlinear_solvers.py:24-33 / 72-78: the starting field *)
Definition start_field (e : env) (c : comp) (Estart : option vec) : St sim vec := fun s =>
  match Estart with
  | Some F => (s, Ok F)
  | None => match s_fields s c with
            | Some F => (s, Ok F)
            | None => match solve_fields e false false s with
                      | (s', Ok (_, _, F)) => (s', Ok F)
                      | (s', Raise x) => (s', Raise x)
                      end
            end
  end.

(** nonlinear_solvers.py:36-51: the Born loop.  [n] iterations remain; returns the
    last (Fx,Fy,Fz), and the convergences recorded in order; [None] if the body never ran. *)
Fixpoint born_loop (e : env) (thr : R) (n : nat) (Fz : vec) : St sim (option (vec * vec * vec) * list xr) :=
  match n with
  | O => ret (None, [])
  | S m => fun s =>
      let s1 := compute_nl Fz s in (* 41 *)
      match solve_fields e true false s1 with (* 43 *)
      | (s2, Raise x) => (s2, Raise x)
      | (s2, Ok (Fx, Fy, Fn)) =>
          let c := convergence (s_M s2) Fn Fz in
          if xlt c thr then (s2, Ok (Some (Fx, Fy, Fn), [c])) (* 50-51 *)
          else match born_loop e thr m Fn s2 with
               | (s3, Raise x) => (s3, Raise x)
               | (s3, Ok (None, l)) => (s3, Ok (Some (Fx, Fy, Fn), c :: l))
               | (s3, Ok (Some F, l)) => (s3, Ok (Some F, c :: l))
               end
      end
  end.

(** conv_array: np.zeros((max_num_iter,1)) with the first entries overwritten *)
Definition conv_array (max_num_iter : nat) (l : list xr) : list xr :=
  l ++ repeat (Fin 0) (max_num_iter - List.length l).

(** nonlinear_solvers.py:15-56, born_solve.  [convergence] is unbound at line 53 when
    the loop body never ran.  [averaging] is accepted and ignored. *)
Definition born_solve (e : env) (Estart : option vec) (thr : R) (max_num_iter : nat) (averaging : bool)
  : St sim (vec * vec * vec * list xr) := fun s =>
  match start_field e (pol_comp (s_pol s)) Estart s with
  | (s1, Raise x) => (s1, Raise x)
  | (s1, Ok Fz) =>
      match born_loop e thr max_num_iter Fz s1 with
      | (s2, Raise x) => (s2, Raise x)
      | (s2, Ok (None, _)) => (s2, Raise UnboundLocalError)
      | (s2, Ok (Some F, l)) => (s2, Ok (F, conv_array max_num_iter l))
      end
  end.

(** nonlinear_solvers.py:118-153, nl_eq_and_jac for pol 'Ez' (130-142): the state
    after compute_nl, f(E), Jac11, Jac12.  For 'Hz': ValueError (145). *)
Definition nl_residual (s : sim) (E : vec) : vec :=
  let s1 := compute_nl E s in
  let Anl := match s_Anl s1 with Some (_, An) => mplus (s_A s1) An | None => s_A s1 end in
  fun k => (mv (s_M s1) Anl E k - nd_buf (s_src s1) k * Ci * RtoC (s_omega s1))%C.
Definition nl_jac11 (s : sim) (E : vec) : mat :=
  let s1 := compute_nl E s in
  let Anl := match s_Anl s1 with Some (_, An) => mplus (s_A s1) An | None => s_A s1 end in
  mplus Anl (spdiags (fun k => (s_dnl_de s1 k * RtoC (s_omega s1 ^ 2) * RtoC (EPSILON_0 * s_L0 s1) * E k)%C)).
Definition nl_jac12 (s : sim) (E : vec) : mat :=
  let s1 := compute_nl E s in
  spdiags (fun k => (Cconj (s_dnl_de s1 k * RtoC (s_omega s1 ^ 2) * RtoC (EPSILON_0 * s_L0 s1)) * E k)%C).
Definition nl_eq_and_jac (E : vec) : St sim (vec * mat * mat) := fun s =>
  match s_pol s with
  | PolEz =>
      if Nat.eqb (nd_size (s_src s)) (s_M s)
      then (compute_nl E s, Ok (nl_residual s E, nl_jac11 s E, nl_jac12 s E))
      else (compute_nl E s, Raise ValueError)
  | PolHz => (s, Raise ValueError)
  end.

(** nonlinear_solvers.py:81-104: the Newton loop (pol 'Ez') *)
Fixpoint newton_loop (e : env) (thr : R) (n : nat) (E : vec) : St sim (vec * list xr) :=
  match n with
  | O => ret (E, [])
  | S m => fun s =>
      match nl_eq_and_jac E s with
      | (s1, Raise x) => (s1, Raise x)
      | (s1, Ok (f, J11, J12)) =>
          match solver_complex2real e (s_M s1) J11 J12 f (DEFAULT_SOLVER e) with
          | Raise x => (s1, Raise x)
          | Ok d =>
              let En := vminus E d in (* 96 *)
              let c := convergence (s_M s1) En E in
              if xlt c thr then (s1, Ok (En, [c]))
              else match newton_loop e thr m En s1 with
                   | (s2, Raise x) => (s2, Raise x)
                   | (s2, Ok (E', l)) => (s2, Ok (E', c :: l))
                   end
          end
      end
  end.

(** nonlinear_solvers.py:58-116, newton_solve.  For 'Hz' line 116 evaluates the
    undefined name [self]: NameError.  With max_num_iter = 0 line 110 reads the
    unbound [convergence]. *)
Definition newton_solve (e : env) (Estart : option vec) (thr : R) (max_num_iter : nat) (averaging : bool)
  : St sim (vec * vec * vec * list xr) := fun s =>
  match s_pol s with
  | PolHz => (s, Raise NameError)
  | PolEz =>
      match start_field e Ez Estart s with
      | (s1, Raise x) => (s1, Raise x)
      | (s1, Ok E0) =>
          match newton_loop e thr max_num_iter E0 s1 with
          | (s2, Raise x) => (s2, Raise x)
          | (s2, Ok (E, l)) =>
              let s3 := compute_nl E s2 in (* 107 *)
              match solve_fields e true false s3 with (* 108 *)
              | (s4, Raise x) => (s4, Raise x)
              | (s4, Ok F) =>
                  match max_num_iter with
                  | O => (s4, Raise UnboundLocalError)
                  | S _ => (s4, Ok (F, conv_array max_num_iter l))
                  end
              end
          end
      end
  end.

(** nonlinear_solvers.py:156-189, newton_krylov_solve; scipy's newton_krylov is the
    oracle [e_krylov], which leaves the simulation with compute_nl evaluated at the
    last point it tried. *)
Definition newton_krylov_solve (e : env) (Estart : option vec) (thr : R) (max_num_iter : nat) (averaging : bool)
  : St sim (vec * vec * vec * list xr) := fun s =>
  match start_field e Ez Estart s with
  | (s1, Raise x) => (s1, Raise x)
  | (s1, Ok E0) =>
      match nl_eq_and_jac E0 s1 with (* 184 *)
      | (s2, Raise x) => (s2, Raise x)
      | (s2, Ok _) =>
          let '(E, Elast) := e_krylov e (nl_residual s2) E0 in
          (compute_nl Elast s2, Ok (E, E, E, conv_array max_num_iter []))
      end
  end.

(** last entry of conv_array, conv_array[-1] (IndexError on an empty array) *)
Definition last_conv (l : list xr) : res xr :=
  match rev l with [] => Raise IndexError | c :: _ => Ok c end.

(** simulation.py:187-217: choice of the nonlinear solver *)
Definition run_solver_nl (e : env) (averaging : bool) (Estart : option vec) (solver_nl : string)
    (thr : R) (max_num_iter : nat) : St sim (vec * vec * vec * list xr) :=
  if String.eqb solver_nl "born" then born_solve e Estart thr max_num_iter averaging
  else if String.eqb solver_nl "newton" then newton_solve e Estart thr max_num_iter averaging
  else if String.eqb solver_nl "LM" then raise NameError (* LM_solve is not imported, 198 *)
  else if String.eqb solver_nl "krylov" then newton_krylov_solve e Estart thr max_num_iter averaging
  else if String.eqb solver_nl "hybrid" then fun s =>
    match born_solve e Estart thr 20 averaging s with (* 208 *)
    | (s1, Raise x) => (s1, Raise x)
    | (s1, Ok (F, conv)) =>
        match last_conv conv with
        | Raise x => (s1, Raise x)
        | Ok c => if xgt c (1 / 10 ^ 10) then (* 211 *)
                    newton_solve e (Some (snd F)) thr 20 averaging s1 (* 212 *)
                  else (s1, Ok (F, conv))
        end
    end
  else raise AssertionError. (* 216 *)

(** simulation.py:179-236, solve_fields_nl *)
Definition solve_fields_nl (e : env) (averaging : bool) (Estart : option vec) (solver_nl : string)
    (thr : R) (max_num_iter : nat) : St sim (vec * vec * vec * list xr) := fun s =>
  match run_solver_nl e averaging Estart solver_nl thr max_num_iter s with
  | (s1, Raise x) => (s1, Raise x)
  | (s1, Ok (F, conv)) =>
      (upd_fields_nl (store3 (s_pol s1) (s_fields_nl s1) F) s1, Ok (F, conv))
  end.
(** solve_fields_nl() with all defaults, simulation.py:179-183 *)
Definition solve_fields_nl_default (e : env) : St sim (vec * vec * vec * list xr) :=
  solve_fields_nl e false None "hybrid" (1 / 10 ^ 10)%R 50.

(** np.abs(index_nl - index_lin), simulation.py:348-350 (eps_r, eps_nl are real).
    np.sqrt of a negative number is nan in python; [sqrt] of it is 0 here. *)
Definition index_shift_at (eps eps_nl : R) : R := Rabs (sqrt (eps + eps_nl) - sqrt eps).

(** simulation.py:343-350, compute_index_shift *)
Definition compute_index_shift (e : env) : St sim rvec :=
  _ <- solve_fields e false false ;;
  _ <- solve_fields_nl_default e ;;
  s <- getS ;;
  ret (fun k => index_shift_at (nd_buf (s_eps s) k) (s_eps_nl s k)).

(** filter.py:114-116, eps2rho *)
Definition eps2rho (eps eps_m : R) : R := ((eps - 1) / (eps_m - 1))%R.

(** simulation.py:306-341, the new permittivity for each style; [rnd] is
    what np.random.random(shape) returns, in C order; np.fliplr reverses the second axis.
    [None] when no branch applies (any other style).  Here the design region is
    compared with 1 (full, halfway, empty) or with 0 (random styles) as in the code. *)
Definition init_eps (rnd : nat -> R) (design : rvec) (eps_m : R) (style : string) (a : nd R) : option (nat -> R) :=
  let old := nd_buf a in
  if String.eqb style "full" then
    Some (fun k => if Req_EM_T (design k) 1 then eps_m else old k)
  else if String.eqb style "halfway" then
    Some (fun k => if Req_EM_T (design k) 1 then (eps_m / 2 + 1 / 2)%R else old k)
  else if String.eqb style "empty" then
    Some (fun k => if Req_EM_T (design k) 1 then 1%R else old k)
  else if String.eqb style "random" then
    Some (fun k => if Req_EM_T (design k) 0 then old k else ((eps_m - 1) * rnd k + 1)%R)
  else if String.eqb style "random_sym" then
    Some (fun k => if Req_EM_T (design k) 0 then old k
                   else let i := (k / nd_ny a)%nat in let j := (k mod nd_ny a)%nat in
                        let flip := rnd (i * nd_ny a + (nd_ny a - 1 - j))%nat in
                        ((eps_m - 1) * (1 / 2 * (flip + rnd k)) + 1)%R)
  else None.

(** simulation.py:306-341, init_design_region *)
Definition init_design_region (rnd : nat -> R) (design : rvec) (eps_m : R) (style : string) (s : sim) : sim :=
  let s1 := match init_eps rnd design eps_m style (s_eps s) with
            | Some b => set_eps (mkNd (nd_nx (s_eps s)) (nd_ny (s_eps s)) b) s
            | None => s
            end in
  upd_rho (Val (fun k => eps2rho (nd_buf (s_eps s1) k) eps_m)) s1.
