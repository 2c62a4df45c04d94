(** Model of angler/constants.py, angler/derivatives.py, angler/pml.py and
    angler/linalg.py. *)
From Coq Require Import Reals Lra Lia List ZArith Arith Bool String.
From Coquelicot Require Import Coquelicot.
From Verif Require Import Base Linear.
Import ListNotations.

(* ------------------------------------------------------------------ *)
(** * constants.py *)

(** constants.py:3  EPSILON_0 = 8.85418782e-12 *)
Definition EPSILON_0 : R := (885418782 / 10 ^ 20)%R.
(** constants.py:4  MU_0 = 1.25663706e-6 *)
Definition MU_0 : R := (125663706 / 10 ^ 14)%R.
(** constants.py:5  C_0 *)
Definition C_0 : R := sqrt (1 / EPSILON_0 / MU_0).
(** constants.py:6  ETA_0 *)
Definition ETA_0 : R := sqrt (MU_0 / EPSILON_0).
(** constants.py:16 *)
Definition DEFAULT_LENGTH_SCALE : R := (1 / 10 ^ 6)%R.

(* ------------------------------------------------------------------ *)
(** * numpy / scipy.sparse operations used by the code *)

(** scipy.sparse.diags(values, offsets, shape=(n,n)) with scalar values. *)
Definition sp_diags (l : list (R * Z)) : mat := fun r c =>
  fold_right (fun vo acc =>
    ((if Z.eqb (Z.of_nat c - Z.of_nat r) (snd vo) then RtoC (fst vo) else RtoC 0) + acc)%C)
    (RtoC 0) l.

(** scipy.sparse.kron(A, B) where B is nB x nB. *)
Definition sp_kron (nB : nat) (A B : mat) : mat := fun r c =>
  (A (r / nB)%nat (c / nB)%nat * B (r mod nB)%nat (c mod nB)%nat)%C.

(** scipy.sparse.eye *)
Definition sp_eye : mat := mId.

(** scipy.sparse.spdiags(v, 0, M, M) *)
Definition spdiags (v : vec) : mat := mdiag v.

(* ------------------------------------------------------------------ *)
(** * derivatives.py *)

Inductive axis := AxX | AxY.
Inductive side := Fwd | Bwd.

(** derivatives.py:7-40, createDws(w, s, dL, N).  A call with len(N) == 1
    (source/mode.py) is [createDws w s dx 1 Nx 1] (lines 14-19).  [w is 'x'] on
    interned literals is modelled as equality.  [s] other than 'f' takes the
    [else] branch, i.e. backward. *)
Definition createDws (w : axis) (s : side) (dx dy : R) (Nx Ny : nat) : mat :=
  match w with
  | AxX =>
      if Nat.ltb 1 Nx then
        match s with
        | Fwd => (* 23-24 *)
            mscal (RtoC (1 / dx))
              (sp_kron Ny (sp_diags [(-1, 0%Z); (1, 1%Z); (1, (- Z.of_nat Nx + 1)%Z)]%R) sp_eye)
        | Bwd => (* 26-27 *)
            mscal (RtoC (1 / dx))
              (sp_kron Ny (sp_diags [(1, 0%Z); (-1, (-1)%Z); (-1, (Z.of_nat Nx - 1)%Z)]%R) sp_eye)
        end
      else sp_eye (* 29 *)
  | AxY =>
      if Nat.ltb 1 Ny then
        match s with
        | Fwd => (* 33-34 *)
            mscal (RtoC (1 / dy))
              (sp_kron Ny sp_eye (sp_diags [(-1, 0%Z); (1, 1%Z); (1, (- Z.of_nat Ny + 1)%Z)]%R))
        | Bwd => (* 36-37 *)
            mscal (RtoC (1 / dy))
              (sp_kron Ny sp_eye (sp_diags [(1, 0%Z); (-1, (-1)%Z); (-1, (Z.of_nat Ny - 1)%Z)]%R))
        end
      else sp_eye (* 39 *)
  end.

(* ------------------------------------------------------------------ *)
(** * pml.py *)

(** pml.py:7-11, sig_w with its defaults m=4, lnR=-12 *)
Definition sig_w (l dw : R) : R :=
  let m := 4%R in let lnR := (-12)%R in
  let sig_max := (- (m + 1) * lnR / (2 * ETA_0 * dw))%R in
  (sig_max * (l / dw) ^ 4)%R.

(** pml.py:14-17, S *)
Definition Sfac (l dw omega L0 : R) : C :=
  (RtoC 1 - Ci * RtoC (sig_w l dw) / RtoC (omega * EPSILON_0 * L0))%C.

(** pml.py:20-39, create_sfactor.  [range] is the python list [lo, hi]. *)
Definition create_sfactor (range : R * R) (L0 : R) (s : side) (omega : R) (Nw Nw_pml : nat) : vec :=
  fun i =>
  if Nat.ltb Nw_pml 1 then RtoC 1 (* 24-25 *)
  else
    let hw := ((snd range - fst range) / INR Nw)%R in
    let dw := (INR Nw_pml * hw)%R in
    match s with
    | Fwd =>
        if Nat.leb i Nw_pml then
          Sfac (hw * (INR Nw_pml - INR i + 0.5)) dw omega L0 (* 30-31 *)
        else if Z.ltb (Z.of_nat Nw - Z.of_nat Nw_pml) (Z.of_nat i) then
          Sfac (hw * (INR i - (INR Nw - INR Nw_pml) - 0.5)) dw omega L0 (* 32-33 *)
        else RtoC 1
    | Bwd =>
        if Nat.leb i Nw_pml then
          Sfac (hw * (INR Nw_pml - INR i + 1)) dw omega L0 (* 35-36 *)
        else if Z.ltb (Z.of_nat Nw - Z.of_nat Nw_pml) (Z.of_nat i) then
          Sfac (hw * (INR i - (INR Nw - INR Nw_pml) - 1)) dw omega L0 (* 37-38 *)
        else RtoC 1
    end.

(** pml.py:42-89, S_create, entry [k] of the flattened 2-D arrays 1/s (lines
    64-81), for a two-dimensional shape. *)
Definition S_vec (w : axis) (s : side) (omega L0 : R) (Nx Ny : nat) (NPML : nat * nat)
    (xrange yrange : R * R) : vec := fun k =>
  match w with
  | AxX => (/ create_sfactor xrange L0 s omega Nx (fst NPML) (k / Ny)%nat)%C
  | AxY => (/ create_sfactor yrange L0 s omega Ny (snd NPML) (k mod Ny)%nat)%C
  end.
Definition S_create w s omega L0 Nx Ny NPML xrange yrange : mat :=
  spdiags (S_vec w s omega L0 Nx Ny NPML xrange yrange).

(* ------------------------------------------------------------------ *)
(** * linalg.py *)

(** linalg.py:19-25, grid_average(center_array, w) on a C-ordered buffer of shape
    (Nx,Ny); np.roll by one along the axis. *)
Definition roll1 {T} (w : axis) (Nx Ny : nat) (a : nat -> T) : nat -> T := fun k =>
  let i := (k / Ny)%nat in let j := (k mod Ny)%nat in
  match w with
  | AxX => a (((i + Nx - 1) mod Nx) * Ny + j)%nat
  | AxY => a (i * Ny + (j + Ny - 1) mod Ny)%nat
  end.
Definition grid_average (w : axis) (Nx Ny : nat) (a : vec) : vec := fun k =>
  ((roll1 w Nx Ny a k + a k) / RtoC 2)%C.

(** linalg.py:28-36, dL *)
Definition dL (Nx Ny : nat) (xrange yrange : R * R) : R * R :=
  (((snd xrange - fst xrange) / INR Nx)%R, ((snd yrange - fst yrange) / INR Ny)%R).

(** the two polarizations accepted by Simulation (simulation.py:246) *)
Inductive pol := PolEz | PolHz.

(** the derivs dictionary, linalg.py:101-106 *)
Record derivs := mkDerivs { Dyb : mat; Dxb : mat; Dxf : mat; Dyf : mat }.

(** linalg.py:60-66 / 86-92: PML-scaled derivative matrices *)
Definition make_deriv (w : axis) (s : side) (omega L0 : R) (Nx Ny : nat) (NPML : nat * nat)
    (xrange yrange : R * R) : mat :=
  let d := dL Nx Ny xrange yrange in
  mm (Nx * Ny) (S_create w s omega L0 Nx Ny NPML xrange yrange)
     (createDws w s (fst d) (snd d) Nx Ny).
Definition make_derivs omega L0 Nx Ny NPML xrange yrange : derivs :=
  mkDerivs (make_deriv AxY Bwd omega L0 Nx Ny NPML xrange yrange)
           (make_deriv AxX Bwd omega L0 Nx Ny NPML xrange yrange)
           (make_deriv AxX Fwd omega L0 Nx Ny NPML xrange yrange)
           (make_deriv AxY Fwd omega L0 Nx Ny NPML xrange yrange).

(** linalg.py:73-78 and simulation.py:133-140: the permittivity seen by Ey ('x')
    and Ex ('y') *)
Definition eps_dir (w : axis) (averaging : bool) (L0 : R) (Nx Ny : nat) (eps : vec) : vec :=
  if averaging then grid_average w Nx Ny (fun k => (RtoC (EPSILON_0 * L0) * eps k)%C)
  else fun k => (RtoC (EPSILON_0 * L0) * eps k)%C.

(** linalg.py:45-108, construct_A for a two-dimensional permittivity; [pol] has
    been validated by the constructor, so the [else: raise] of line 98 is
    unreachable here. *)
Definition construct_A (omega : R) (xrange yrange : R * R) (Nx Ny : nat) (eps : vec)
    (NPML : nat * nat) (p : pol) (L0 : R) (averaging : bool) : mat * derivs :=
  let M := (Nx * Ny)%nat in
  let EPS := (EPSILON_0 * L0)%R in
  let MU := (MU_0 * L0)%R in
  let D := make_derivs omega L0 Nx Ny NPML xrange yrange in
  match p with
  | PolEz => (* 57-70 *)
      (mplus (mplus (mm M (mscal (RtoC (1 / MU)) (Dxf D)) (Dxb D))
                    (mm M (mscal (RtoC (1 / MU)) (Dyf D)) (Dyb D)))
             (mscal (RtoC (omega ^ 2)) (spdiags (fun k => (RtoC EPS * eps k)%C))), D)
  | PolHz => (* 73-96 *)
      let ex := eps_dir AxX averaging L0 Nx Ny eps in
      let ey := eps_dir AxY averaging L0 Nx Ny eps in
      (mplus (mplus (mm M (mm M (Dxf D) (spdiags (fun k => (/ ex k)%C))) (Dxb D))
                    (mm M (mm M (Dyf D) (spdiags (fun k => (/ ey k)%C))) (Dyb D)))
             (mscal (RtoC (omega ^ 2 * MU)) sp_eye), D)
  end.

(** Linear solver names after [.lower()], linalg.py:135,141,144 *)
Inductive solver_name := Pardiso | Scipy | OtherSolver.

(** The numerical libraries outside the repository.
    [e_solve s n A b]: what library [s] returns for the n x n complex system;
    [e_rsolve n A b]: pardiso on a real system;
    [e_eigs N A order neff2]: column [order-1] of the eigenvectors returned by
    scipy eigs (or the exception it raises);
    [e_krylov f E0]: root returned by scipy newton_krylov(f, E0) and the last
    point at which it evaluated the residual function f. *)
Record env := mkEnv {
  e_pardiso : bool;                                 (* is pyMKL importable *)
  e_solve : solver_name -> nat -> mat -> vec -> vec;
  e_rsolve : nat -> rmat -> rvec -> rvec;
  e_eigs : nat -> mat -> nat -> R -> res vec;
  e_krylov : (vec -> vec) -> vec -> vec * vec
}.

(** linalg.py:5-9, constants.py:10-14 *)
Definition DEFAULT_SOLVER (e : env) : solver_name := if e_pardiso e then Pardiso else Scipy.

(** [not b.any()] *)
Definition all_zero (n : nat) (b : vec) : bool :=
  if Req_EM_T (rsum n (fun k => Cnorm2 (b k))) 0 then true else false.

(** linalg.py:123-150, solver_direct *)
Definition solver_direct (e : env) (n : nat) (A : mat) (b : vec) (s : solver_name) : res vec :=
  if all_zero n b then Ok vzero (* 129-130 *)
  else match s with
       | Pardiso => if e_pardiso e then Ok (e_solve e Pardiso n A b) else Raise NameError
       | Scipy => Ok (e_solve e Scipy n A b)
       | OtherSolver => Raise ValueError
       end.

(** linalg.py:166-167, the real 2n x 2n block matrix *)
Definition Areal (n : nat) (A11 A12 : mat) : rmat := fun i j =>
  if Nat.ltb i n then
    if Nat.ltb j n then (Re (A11 i j) + Re (A12 i j))%R
    else (- Im (A11 i (j - n)%nat) + Im (A12 i (j - n)%nat))%R
  else
    if Nat.ltb j n then (Im (A11 (i - n)%nat j) + Im (A12 (i - n)%nat j))%R
    else (Re (A11 (i - n)%nat (j - n)%nat) - Re (A12 (i - n)%nat (j - n)%nat))%R.

(** np.hstack((b_re, b_im)), linalg.py:163-164,175 *)
Definition breal (n : nat) (b : vec) : rvec := fun i =>
  if Nat.ltb i n then Re (b i) else Im (b (i - n)%nat).

(** linalg.py:187 *)
Definition complex_of_real (n : nat) (x : rvec) : vec := fun k =>
  (RtoC (x k) + Ci * RtoC (x (n + k)%nat))%C.

(** linalg.py:153-187, solver_complex2real.  Line 179 calls the name [spsolve],
    which the module does not import: NameError. *)
Definition solver_complex2real (e : env) (n : nat) (A11 A12 : mat) (b : vec) (s : solver_name) : res vec :=
  if all_zero n b then Ok vzero (* 160-161 *)
  else match s with
       | Pardiso => if e_pardiso e
                    then Ok (complex_of_real n (e_rsolve e (2 * n) (Areal n A11 A12) (breal n b)))
                    else Raise NameError
       | Scipy => Raise NameError
       | OtherSolver => Raise ValueError
       end.
