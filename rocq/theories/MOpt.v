(** Model of angler/objective.py, angler/adjoint.py, angler/gradients.py and
    angler/optimization.py (except plotting, progress bars and scan_power, which is
    in MMode.v).  Arrays are the C-ordered buffers of their pixels; the fields, the
    density and the design region all have the shape of the simulation (shape
    mismatches between them are not modelled). *)
From Coq Require Import Reals Lra Lia List ZArith Arith Bool String.
From Coquelicot Require Import Coquelicot.
From Verif Require Import Base Linear MCore MSim MFilter.
Import ListNotations.
Local Open Scope string_scope.

(* ------------------------------------------------------------------ *)
(** * objective.py *)

(** A python objective function: its number of parameters (inspect.signature), its
    value, and what autograd.grad(J, i) returns; calling either with another number of
    arguments is a TypeError. *)
Record pyfun := mkFun { pf_arity : nat; pf_val : list vec -> R; pf_grad : nat -> list vec -> vec }.
Definition pf_call (J : pyfun) (args : list vec) : res R :=
  if Nat.eqb (List.length args) (pf_arity J) then Ok (pf_val J args) else Raise TypeError.
Definition pf_dcall (J : pyfun) (i : nat) (args : list vec) : res vec :=
  if Nat.eqb (List.length args) (pf_arity J) then Ok (pf_grad J i args) else Raise TypeError.

(** gradients.py: the twelve gradient functions *)
Inductive grad_fn :=
| grad_linear_Ez | grad_linear_Hx | grad_linear_Hy
| grad_linear_Hz | grad_linear_Ex | grad_linear_Ey
| grad_kerr_Ez | grad_kerr_Hx | grad_kerr_Hy
| grad_kerr_Hz | grad_kerr_Ex | grad_kerr_Ey.

(** objective.py:7-26 *)
Definition GRADIENT_MAP (c : comp) (nl : bool) : grad_fn :=
  match c with
  | Ez => if nl then grad_kerr_Ez else grad_linear_Ez
  | Hx => if nl then grad_kerr_Hx else grad_linear_Hx
  | Hy => if nl then grad_kerr_Hy else grad_linear_Hy
  | Hz => if nl then grad_kerr_Hz else grad_linear_Hz
  | Ex => if nl then grad_kerr_Ex else grad_linear_Ex
  | Ey => if nl then grad_kerr_Ey else grad_linear_Ey
  end.

Record obj_arg := mkArg { oa_comp : comp; oa_nl : bool; oa_gradient : grad_fn }.

(** the strings of objective.py:98 *)
Definition comp_of_string (s : string) : option comp :=
  if String.eqb s "Ex" then Some Ex else if String.eqb s "Ey" then Some Ey
  else if String.eqb s "Ez" then Some Ez else if String.eqb s "Hx" then Some Hx
  else if String.eqb s "Hy" then Some Hy else if String.eqb s "Hz" then Some Hz else None.

(** objective.py:92-114, obj_arg.__init__ (the name is not modelled) *)
Definition new_obj_arg (component : string) (nl : bool) : res obj_arg :=
  match comp_of_string component with
  | None => Raise ValueError
  | Some c => Ok (mkArg c nl (GRADIENT_MAP c nl))
  end.

Record objective := mkObjective {
  ob_args : list obj_arg;
  ob_J : pyfun;
  ob_dJ : list (list vec -> res vec);
  ob_grads : list grad_fn }.

(** objective.py:59-83, the setter of J: dJ_list (66-76) has one partial derivative
    per parameter of J, grad_fn_list (78-83) one gradient per argument *)
Definition set_J (J : pyfun) (args : list obj_arg) : objective :=
  mkObjective args J (List.map (fun i => pf_dcall J i) (List.seq 0 (pf_arity J)))
    (List.map oa_gradient args).
(** objective.J = J on an existing objective *)
Definition reassign_J (J : pyfun) (ob : objective) : objective := set_J J (ob_args ob).

(** objective.py:33-45, Objective.__init__; a single argument that is not a list is
    the one-element list (36-37) *)
Definition Objective (J : pyfun) (args : list obj_arg) : res objective :=
  let ob := set_J J args in
  if negb (Nat.eqb (List.length args) (pf_arity J)) then Raise ValueError else Ok ob.

(** objective.py:47-52 *)
Definition is_linear (ob : objective) : bool := forallb (fun a => negb (oa_nl a)) (ob_args ob).

(* ------------------------------------------------------------------ *)
(** * Optimization objects *)

(** The attributes of an Optimization (optimization.py:20-44), without its simulation,
    which is kept beside it: methods act on pairs (optimization, simulation).
    field_start and nl_solver (37-38) are stored and never read. *)
Record opt := mkOpt {
  o_objective : objective;
  o_design : rvec;
  o_W : rmat;
  o_eta : R; o_beta : R; o_eps_m : R;
  o_field_start : string; o_nl_solver : string;
  o_max_shift : option R;
  o_src_amps : list R;
  o_objs : list R;
  o_current : bool;
  o_arglist : option (list vec)   (* None: field_arg_list does not exist yet *)
}.

Definition upd_current (b : bool) (o : opt) : opt :=
  mkOpt (o_objective o) (o_design o) (o_W o) (o_eta o) (o_beta o) (o_eps_m o) (o_field_start o) (o_nl_solver o)
    (o_max_shift o) (o_src_amps o) (o_objs o) b (o_arglist o).
Definition upd_arglist (l : list vec) (o : opt) : opt :=
  mkOpt (o_objective o) (o_design o) (o_W o) (o_eta o) (o_beta o) (o_eps_m o) (o_field_start o) (o_nl_solver o)
    (o_max_shift o) (o_src_amps o) (o_objs o) true (Some l).
Definition push_obj (x : R) (o : opt) : opt :=
  mkOpt (o_objective o) (o_design o) (o_W o) (o_eta o) (o_beta o) (o_eps_m o) (o_field_start o) (o_nl_solver o)
    (o_max_shift o) (o_src_amps o) (o_objs o ++ [x])%list (o_current o) (o_arglist o).
Definition push_amp (x : R) (o : opt) : opt :=
  mkOpt (o_objective o) (o_design o) (o_W o) (o_eta o) (o_beta o) (o_eps_m o) (o_field_start o) (o_nl_solver o)
    (o_max_shift o) (o_src_amps o ++ [x])%list (o_objs o) (o_current o) (o_arglist o).

(** optimization.py:16-44, Optimization.__init__; Rr is None or an integer radius *)
Definition Optimization (ob : objective) (s : sim) (design : rvec) (eps_m : R) (Rr : option nat)
    (eta beta : R) (field_start nl_solver : string) (max_shift : option R) : res opt :=
  let W := match Rr with
           | Some r => get_W (nd_nx (s_eps s)) (nd_ny (s_eps s)) design (s_NPML s) r (* 29 *)
           | None => Ok rId (* 31 *)
           end in
  match W with
  | Raise x => Raise x
  | Ok W => Ok (mkOpt ob design W eta beta eps_m field_start nl_solver max_shift [] [] false None)
  end.

(** optimization.py:60-68: fields that the arguments refer to *)
Fixpoint arg_fields (s : sim) (l : list obj_arg) : res (list vec) :=
  match l with
  | [] => Ok []
  | a :: t =>
      match (if oa_nl a then s_fields_nl s (oa_comp a) else s_fields s (oa_comp a)) with
      | None => Raise ValueError
      | Some F => match arg_fields s t with Raise x => Raise x | Ok Fs => Ok (F :: Fs) end
      end
  end.

(** optimization.py:53, the condition for computing the fields *)
Definition needs_solve (o : opt) : res bool :=
  if negb (o_current o) then Ok true
  else match o_arglist o with
       | None => Raise AttributeError
       | Some [] => Ok true
       | Some _ => Ok false
       end.

(** optimization.py:46-74, _solve_objfn_arg_fields(simulation); the simulation in the
    state is the one passed *)
Definition solve_arg_fields (e : env) : St (opt * sim) unit := fun st =>
  let '(o, s) := st in
  match needs_solve o with
  | Raise x => (st, Raise x)
  | Ok false => (st, Ok tt)
  | Ok true =>
      match solve_fields e false false s with (* 55 *)
      | (s1, Raise x) => ((o, s1), Raise x)
      | (s1, Ok _) =>
          let nlr := if is_linear (o_objective o) then (s1, Ok tt) (* 56-57 *)
                     else match solve_fields_nl_default e s1 with
                          | (s2, Ok _) => (s2, Ok tt)
                          | (s2, Raise x) => (s2, Raise x)
                          end in
          match nlr with
          | (s2, Raise x) => ((o, s2), Raise x)
          | (s2, Ok _) =>
              match arg_fields s2 (ob_args (o_objective o)) with
              | Raise x => ((o, s2), Raise x)
              | Ok l => ((upd_arglist l o, s2), Ok tt) (* 71-74 *)
              end
          end
      end
  end.

(** field_arg_list after _solve_objfn_arg_fields has succeeded *)
Definition stored_args (o : opt) : list vec := match o_arglist o with Some l => l | None => [] end.

(** optimization.py:77-84, compute_J(simulation) *)
Definition compute_J (e : env) : St (opt * sim) R :=
  solve_arg_fields e ;;;
  st <- getS ;;
  lift (pf_call (ob_J (o_objective (fst st))) (stored_args (fst st))).

(* ------------------------------------------------------------------ *)
(** * adjoint.py *)

(** adjoint.py:12-26 *)
Definition adjoint_linear_Ez (e : env) (s : sim) (b_aj : vec) : res vec :=
  solver_direct e (s_M s) (mT (s_A s)) b_aj (DEFAULT_SOLVER e).

(** adjoint.py:29-61, with averaging=False (the only value gradients.py passes) *)
Definition adjoint_linear_Hz (e : env) (s : sim) (b_aj : vec) : res (vec * vec) :=
  match solver_direct e (s_M s) (mT (s_A s)) b_aj (DEFAULT_SOLVER e) with
  | Raise x => Raise x
  | Ok hz =>
      let M := s_M s in
      let veps := fun k => (RtoC (EPSILON_0 * s_L0 s) * s_epsC s k)%C in (* 48-49 *)
      let T := spdiags (fun k => (/ veps k)%C) in
      Ok (vscal (RtoC 1 / Ci / RtoC (s_omega s))%C (mv M (mm M T (mT (Dyf (s_derivs s)))) hz), (* 55 *)
          vscal (- RtoC 1 / Ci / RtoC (s_omega s))%C (mv M (mm M T (mT (Dxf (s_derivs s)))) hz)) (* 56 *)
  end.

(** adjoint.py:76-85: the blocks and the full matrix *)
Definition kerr_dAde (s : sim) : vec := fun k => (RtoC (s_omega s ^ 2 * (EPSILON_0 * s_L0 s)) * s_dnl_de s k)%C.
Definition kerr_C11 (s : sim) (An : mat) (E : vec) : mat :=
  mplus (mplus (s_A s) An) (spdiags (fun k => (kerr_dAde s k * E k)%C)). (* 80 *)
Definition kerr_C12 (s : sim) (E : vec) : mat := spdiags (fun k => (Cconj (kerr_dAde s k) * E k)%C). (* 81 *)
Definition block2 (n : nat) (A B C D : mat) : mat := fun r c =>
  if Nat.ltb r n then if Nat.ltb c n then A r c else B r (c - n)%nat
  else if Nat.ltb c n then C (r - n)%nat c else D (r - n)%nat (c - n)%nat.
Definition kerr_Cfull (n : nat) (C11 C12 : mat) : mat := block2 n C11 C12 (mconj C12) (mconj C11). (* 82 *)
(** np.vstack((b, conj b)), flattened by the solver *)
Definition stack_conj (n : nat) (b : vec) : vec := fun k => if Nat.ltb k n then b k else Cconj (b (k - n)%nat).

(** adjoint.py:64-92; the message of line 88 is not modelled *)
Definition adjoint_kerr_Ez (e : env) (s : sim) (b_aj : vec) : res vec :=
  match s_Anl s with
  | None => Raise AttributeError (* 77 *)
  | Some (m, An) =>
      if negb (Nat.eqb m (s_M s)) then Raise ValueError
      else match s_fields_nl s Ez with
           | None => Raise TypeError (* 80 *)
           | Some E =>
               solver_direct e (2 * s_M s) (mT (kerr_Cfull (s_M s) (kerr_C11 s An E) (kerr_C12 s E)))
                 (stack_conj (s_M s) b_aj) (DEFAULT_SOLVER e)
           end
  end.

(* ------------------------------------------------------------------ *)
(** * gradients.py *)

(** simulation.rho as an array; None and a missing attribute both end in AttributeError
    (rho.shape, filter.py:95) *)
Definition get_rho (s : sim) : res rvec := match s_rho s with Val r => Ok r | _ => Raise AttributeError end.

Definition vneg (v : vec) : vec := fun k => (- v k)%C.

(** gradients.py:26-39 (and the same lines of the other functions):
    dfdrho = (eps_m-1) * filt_mat.multiply(E*proj*dAdeps) has entry
    (eps_m-1) * W[i,j] * (E*proj*dAdeps)[j]; its product with the adjoint field *)
Definition sensitivity (M : nat) (o : opt) (rho : rvec) (E : vec) (dAdeps : rvec) (aj : vec) : vec :=
  let rho_t := rho2rhot M rho (o_W o) in
  let proj := fun k => drhob_drhot (rho_t k) (o_eta o) (o_beta o) in
  fun i => csum M (fun j =>
    (RtoC (o_eps_m o - 1) * (RtoC (o_W o i j) * (E j * RtoC (proj j) * RtoC (dAdeps j))) * aj j)%C).

(** gradients.py:24 *)
Definition dAdeps_lin (o : opt) (s : sim) : rvec := fun k =>
  (o_design o k * s_omega s ^ 2 * (EPSILON_0 * s_L0 s))%R.
(** gradients.py:128-129 *)
Definition dAdeps_kerr (o : opt) (s : sim) : rvec := fun k =>
  (dAdeps_lin o s k + o_design o k * s_omega s ^ 2 * (EPSILON_0 * s_L0 s) * s_dnl_deps s k)%R.

(** gradients.py:20-41, after the adjoint source b_aj is known *)
Definition finish_linear_Ez (e : env) (o : opt) (s : sim) (F : option vec) (b_aj : vec) : res rvec :=
  rbind (adjoint_linear_Ez e s b_aj) (fun aj =>
  rbind (get_rho s) (fun rho =>
  match F with
  | None => Raise TypeError (* None * array *)
  | Some E => Ok (fun i => Re (sensitivity (s_M s) o rho E (dAdeps_lin o s) aj i))
  end)).

(** gradients.py:16-41, grad_linear_Ez *)
Definition g_linear_Ez (e : env) (o : opt) (s : sim) (dJ : list vec -> res vec) (F : option vec) (args : list vec) : res rvec :=
  rbind (dJ args) (fun g => finish_linear_Ez e o s F (vneg g)).

(** gradients.py:54 / 155 and 92 / 193: the adjoint sources for Hx and Hy *)
Definition b_aj_Hx (s : sim) (partial : vec) : vec :=
  vscal (- RtoC 1 / Ci / RtoC (s_omega s) / RtoC (MU_0 * s_L0 s))%C (mv (s_M s) (mT (Dyb (s_derivs s))) partial).
Definition b_aj_Hy (s : sim) (partial : vec) : vec :=
  vscal (RtoC 1 / Ci / RtoC (s_omega s) / RtoC (MU_0 * s_L0 s))%C (mv (s_M s) (mT (Dxb (s_derivs s))) partial).

(** gradients.py:43-79 and 81-117; [Ez.shape] (55, 93) fails on None *)
Definition g_linear_Hxy (b_aj : sim -> vec -> vec) (e : env) (o : opt) (s : sim)
    (dJ : list vec -> res vec) (F : option vec) (args : list vec) : res rvec :=
  rbind (dJ args) (fun g =>
  match F with
  | None => Raise AttributeError
  | Some _ => finish_linear_Ez e o s F (b_aj s (vneg g))
  end).

(** gradients.py:119-142, grad_kerr_Ez; compute_nl (124) changes the simulation *)
Definition g_kerr_Ez (e : env) (o : opt) (dJ : list vec -> res vec) (F : option vec) (args : list vec) : St sim rvec := fun s =>
  match dJ args with
  | Raise x => (s, Raise x)
  | Ok g =>
      match adjoint_kerr_Ez e s (vneg g) with
      | Raise x => (s, Raise x)
      | Ok aj =>
          match F with
          | None => (s, Raise TypeError)
          | Some E =>
              let s1 := compute_nl E s in (* 124 *)
              (s1, rbind (get_rho s1) (fun rho =>
                     Ok (fun i => Re (sensitivity (s_M s1) o rho E (dAdeps_kerr o s1) aj i))))
          end
      end
  end.

(** gradients.py:228-296, grad_linear_Hz, 298-367 grad_linear_Ex, 369-438 grad_linear_Ey
    with averaging=False (the only call, optimization.py:99, passes no averaging).
    The names Dxb, Dyb in these functions are bound to the forward operators (233-234);
    M is eps_r.size (237). *)
Inductive hz_kind := KHz | KEx | KEy.
Definition g_linear_Hz (k : hz_kind) (e : env) (o : opt) (s : sim)
    (dJ : list vec -> res vec) (F : option vec) (args : list vec) : res rvec :=
  match F with
  | None => Raise ValueError (* 254-255: shapes do not match *)
  | Some H =>
      let M := s_M s in
      let veps := fun j => (RtoC (EPSILON_0 * s_L0 s) * s_epsC s j)%C in (* 245-246 *)
      let T := spdiags (fun j => (/ veps j)%C) in
      let cx := (RtoC 1 / Ci / RtoC (s_omega s))%C in
      let cy := (- RtoC 1 / Ci / RtoC (s_omega s))%C in
      let Ex_vec := vscal cx (mv M (mm M T (Dyf (s_derivs s))) H) in (* 255 *)
      let Ey_vec := vscal cy (mv M (mm M T (Dxf (s_derivs s))) H) in (* 256 *)
      rbind (dJ args) (fun g =>
      let b_aj := match k with
        | KHz => vneg g (* 262 *)
        | KEx => vscal cx (mv M (mm M T (mT (Dyf (s_derivs s)))) (vneg g)) (* 331 *)
        | KEy => vscal cy (mv M (mm M T (mT (Dxf (s_derivs s)))) (vneg g)) (* 402 *)
        end in
      rbind (adjoint_linear_Hz e s b_aj) (fun aj =>
      rbind (get_rho s) (fun rho =>
      let dA := dAdeps_lin o s in (* 290 *)
      Ok (fun i => Re (sensitivity M o rho Ex_vec dA (fst aj) i
                       + sensitivity M o rho Ey_vec dA (snd aj) i)%C))))
  end.

(** calling one of the twelve functions on (optimization, simulation) *)
Definition run_grad (e : env) (f : grad_fn) (o : opt) (dJ : list vec -> res vec) (F : option vec)
    (args : list vec) : St sim rvec := fun s =>
  match f with
  | grad_linear_Ez => (s, g_linear_Ez e o s dJ F args)
  | grad_linear_Hx => (s, g_linear_Hxy b_aj_Hx e o s dJ F args)
  | grad_linear_Hy => (s, g_linear_Hxy b_aj_Hy e o s dJ F args)
  | grad_kerr_Ez => g_kerr_Ez e o dJ F args s
  | grad_kerr_Hx | grad_kerr_Hy => (* 156, 194: the name Ez is not defined *)
      (s, rbind (dJ args) (fun _ => Raise NameError))
  | grad_linear_Hz => (s, g_linear_Hz KHz e o s dJ F args)
  | grad_linear_Ex => (s, g_linear_Hz KEx e o s dJ F args)
  | grad_linear_Ey => (s, g_linear_Hz KEy e o s dJ F args)
  | grad_kerr_Hz | grad_kerr_Ex | grad_kerr_Ey => (s, Raise NotImplementedError) (* 440-447 *)
  end.

(* ------------------------------------------------------------------ *)
(** * optimization.py: gradient and drivers *)

(** optimization.py:94-100, the loop over zip(grad_fn_list, dJ_list, arg_list) *)
Fixpoint grad_loop (e : env) (o : opt) (l : list (grad_fn * (list vec -> res vec) * obj_arg)) (acc : rvec)
  : St sim rvec :=
  match l with
  | [] => ret acc
  | (f, dJ, a) :: t => fun s =>
      let F := if oa_nl a then s_fields_nl s (pol_comp (s_pol s)) else s_fields s (pol_comp (s_pol s)) in
      match run_grad e f o dJ F (stored_args o) s with
      | (s1, Raise x) => (s1, Raise x)
      | (s1, Ok g) => grad_loop e o t (fun k => (acc k + g k)%R) s1
      end
  end.

(** optimization.py:86-102, compute_dJ(self.simulation, design_region); the argument
    design_region is not used by the code.  The simulation passed is the
    optimization's own (every call in the repository). *)
Definition compute_dJ (e : env) : St (opt * sim) rvec := fun st =>
  match solve_arg_fields e st with
  | (st1, Raise x) => (st1, Raise x)
  | ((o, s), Ok _) =>
      let ob := o_objective o in
      match grad_loop e o (List.combine (List.combine (ob_grads ob) (ob_dJ ob)) (ob_args ob)) (fun _ => 0%R) s with
      | (s1, r) => ((o, s1), r)
      end
  end.

(** rho2eps with the optimization's parameters, as a permittivity array *)
Definition opt_eps (o : opt) (s : sim) (rho : rvec) : nd R :=
  mkNd (s_Nx s) (s_Ny s) (rho2eps (s_M s) rho (o_eps_m o) (o_W o) (o_eta o) (o_beta o)).

(** flattened pixel numbers of the design region, in the order of boolean indexing *)
Definition design_pixels (n : nat) (design : rvec) : list nat :=
  List.filter (fun k => if Req_EM_T (design k) 1 then true else false) (List.seq 0 n).

(** optimization.py:104-150, check_deriv; [choices] are the values drawn by
    np.random.randint, d_rho <> 0 *)
Fixpoint check_deriv_loop (e : env) (d_rho J_orig : R) (grad : rvec) (choices : list nat)
  : St (opt * sim) (list R * list R) :=
  match choices with
  | [] => ret ([], [])
  | i :: t => fun st =>
      let '(o, s) := st in
      match get_rho s with
      | Raise x => (st, Raise x)
      | Ok rho =>
          match design_pixels (s_M s) (o_design o) with
          | [] => (st, Raise ValueError) (* randint(0) *)
          | p0 :: _ =>
              let pt := List.nth i (design_pixels (s_M s) (o_design o)) p0 in
              let rho_new := fun k => if Nat.eqb k pt then (rho k + d_rho)%R else rho k in (* 128 *)
              let sim_new := set_eps (opt_eps o s rho_new) (upd_rho (Val rho_new) s) in (* 131-136 *)
              match compute_J e (upd_current false o, sim_new) with (* 138-141 *)
              | ((o1, _), Raise x) => ((o1, s), Raise x)
              | ((o1, _), Ok J_new) =>
                  match check_deriv_loop e d_rho J_orig grad t (o1, s) with
                  | (st2, Raise x) => (st2, Raise x)
                  | (st2, Ok (l1, l2)) => (st2, Ok (grad pt :: l1, ((J_new - J_orig) / d_rho)%R :: l2))
                  end
              end
          end
      end
  end.
Definition check_deriv (e : env) (d_rho : R) (choices : list nat) : St (opt * sim) (list R * list R) := fun st =>
  let '(o, s) := st in
  match get_rho s with
  | Raise x => ((upd_current false o, s), Raise x)
  | Ok rho =>
      let st0 := (upd_current false o, set_eps (opt_eps o s rho) s) in (* 107-109 *)
      match compute_dJ e st0 with
      | (st1, Raise x) => (st1, Raise x)
      | (st1, Ok g) =>
          match compute_J e st1 with
          | (st2, Raise x) => (st2, Raise x)
          | (st2, Ok J) => check_deriv_loop e d_rho J g choices st2
          end
      end
  end.

(** np.max of an array with n >= 1 entries *)
Fixpoint rmax (n : nat) (f : nat -> R) : R :=
  match n with
  | O => 0%R
  | S O => f O
  | S m => Rmax (rmax m f) (f m)
  end.

(** optimization.py:404-425, _set_source_amplitude() with epsilon=1e-2, N=1.  When the
    largest index shift is 0 or has not the sign of the limit, the new source
    would be inf or nan (np.sqrt(ratio)): the model stops there. *)
Definition set_source_amplitude (e : env) : St (opt * sim) unit := fun st =>
  let '(o, s) := st in
  let o1 := push_amp (rmax (nd_size (s_src s)) (fun k => Cmod (nd_buf (s_src s) k))) o in (* 411 *)
  match o_max_shift o1 with
  | None => ((upd_current false o1, s), Ok tt)
  | Some lim =>
      match compute_index_shift e s with (* 420 *)
      | (s1, Raise x) => ((o1, s1), Raise x)
      | (s1, Ok dn) =>
          let max_dn := rmax (s_M s1) dn in
          if Req_EM_T max_dn 0 then ((o1, s1), Raise NotRepresentable)
          else if Rlt_dec (lim / max_dn) 0 then ((o1, s1), Raise NotRepresentable)
          else
            let c := (sqrt (lim / max_dn) - 1 / 100)%R in (* 422-424 *)
            let s2 := upd_src (mkNd (nd_nx (s_src s1)) (nd_ny (s_src s1))
                                 (fun k => (nd_buf (s_src s1) k * RtoC c)%C)) s1 in
            ((upd_current false o1, s2), Ok tt)
      end
  end.

Definition clip01 (x : R) : R :=
  let y := if Rlt_dec x 0 then 0%R else x in (* 431 *)
  if Rlt_dec 1 y then 1%R else y. (* 432 *)

(** optimization.py:427-436, _update_rho *)
Definition update_rho (grad : rvec) (step_size : R) : St (opt * sim) unit := fun st =>
  let '(o, s) := st in
  match s_rho s with
  | Val rho =>
      let rho1 := fun k => clip01 (rho k + o_design o k * step_size * grad k)%R in
      let s1 := upd_rho (Val rho1) s in
      ((upd_current false o, set_eps (opt_eps o s1 rho1) s1), Ok tt)
  | PyNone => (st, Raise TypeError)
  | Absent => (st, Raise AttributeError)
  end.

(** optimization.py:438-447, _step_adam (elementwise), epsilon=1e-8 *)
Definition adam_m (beta1 m g : R) : R := (beta1 * m + (1 - beta1) * g)%R.
Definition adam_v (beta2 v g : R) : R := (beta2 * v + (1 - beta2) * g ^ 2)%R.
Definition adam_step (beta1 beta2 m v : R) (iteration : nat) : R :=
  (m / (1 - beta1 ^ (iteration + 1)) / (sqrt (v / (1 - beta2 ^ (iteration + 1))) + 1 / 10 ^ 8))%R.

(** optimization.py:215-235, _run_GD; [n] iterations remain (temp_plt is None) *)
Fixpoint run_GD (e : env) (step_size : R) (n : nat) : St (opt * sim) unit :=
  match n with
  | O => ret tt
  | S m =>
      J <- compute_J e ;;
      modS (fun st => (push_obj J (fst st), snd st)) ;;;
      set_source_amplitude e ;;;
      g <- compute_dJ e ;;
      update_rho g step_size ;;;
      run_GD e step_size m
  end.

(** optimization.py:237-262, _run_ADAM *)
Fixpoint run_ADAM (e : env) (step_size beta1 beta2 : R) (n iteration : nat) (mopt vopt : rvec) : St (opt * sim) unit :=
  match n with
  | O => ret tt
  | S m =>
      J <- compute_J e ;;
      modS (fun st => (push_obj J (fst st), snd st)) ;;;
      set_source_amplitude e ;;;
      g <- compute_dJ e ;;
      let mopt' := fun k => adam_m beta1 (mopt k) (g k) in
      let vopt' := fun k => adam_v beta2 (vopt k) (g k) in
      update_rho (fun k => adam_step beta1 beta2 (mopt' k) (vopt' k) iteration) step_size ;;;
      run_ADAM e step_size beta1 beta2 m (S iteration) mopt' vopt'
  end.

(** optimization.py:396-402, _get_design_region, spatial_vec[des_vec == 1] *)
Definition get_design_region (n : nat) (design : rvec) (a : rvec) : rvec :=
  fun k => a (List.nth k (design_pixels n design) O).
(** number of design pixels before pixel k *)
Definition design_rank (design : rvec) (k : nat) : nat := List.length (design_pixels k design).
(** rho_vec[des_vec == 1] = x *)
Definition insert_design (design x rho : rvec) : rvec := fun k =>
  if Req_EM_T (design k) 1 then x (design_rank design k) else rho k.

(** optimization.py:377-394, _set_design_region *)
Definition set_design_region (x : rvec) : St (opt * sim) unit := fun st =>
  let '(o, s) := st in
  match s_rho s with
  | Absent => (st, Raise AttributeError)
  | PyNone => (st, Raise IndexError)
  | Val rho =>
      let n := List.length (design_pixels (s_M s) (o_design o)) in
      let cur := get_design_region (s_M s) (o_design o) rho in
      if xgt (xdiv (rnrm n (fun k => (x k - cur k)%R)) (rnrm n x)) (1 / 10 ^ 10) then (* 386 *)
        let rho1 := insert_design (o_design o) x rho in
        let s1 := upd_rho (Val rho1) s in
        ((upd_current false o, set_eps (opt_eps o s1 rho1) s1), Ok tt)
      else ((upd_current false o, s), Ok tt)
  end.

(** The calls that scipy's fmin_l_bfgs_b makes: objective, gradient, callback *)
Inductive lb_call := CallF (x : rvec) | CallG (x : rvec) | CallBack (x : rvec).
Inductive lb_out := OutF (v : R) | OutG (g : rvec) | OutC.

(** optimization.py:269-276, 278-287, 294-304 *)
Definition lb_serve (e : env) (c : lb_call) : St (opt * sim) lb_out :=
  match c with
  | CallF x => set_design_region x ;;; J <- compute_J e ;; ret (OutF (- J)%R)
  | CallG x => set_design_region x ;;; g <- compute_dJ e ;;
      st <- getS ;;
      ret (OutG (fun k => (- get_design_region (s_M (snd st)) (o_design (fst st)) g k)%R))
  | CallBack x =>
      J <- compute_J e ;;
      modS (fun st => (push_obj J (fst st), snd st)) ;;;
      set_design_region x ;;;
      set_source_amplitude e ;;;
      ret OutC
  end.
Fixpoint lb_serve_all (e : env) (l : list lb_call) : St (opt * sim) (list lb_out) :=
  match l with
  | [] => ret []
  | c :: t => o <- lb_serve e c ;; os <- lb_serve_all e t ;; ret (o :: os)
  end.

(** optimization.py:264-322, _run_LBFGS: the library makes the calls [calls] (which
    calls it makes is arbitrary) and returns [x_final] *)
Definition run_LBFGS (e : env) (calls : list lb_call) (x_final : rvec) : St (opt * sim) unit := fun st =>
  match s_rho (snd st) with
  | Absent | PyNone => (st, Raise AttributeError) (* 310-311 *)
  | Val _ => (lb_serve_all e calls ;;; set_design_region x_final) st
  end.

(** optimization.py:184-213, run; the method name after .lower() *)
Inductive method := MLBFGS (calls : list lb_call) (x_final : rvec) | MGD | MADAM | MOther.
Definition run (e : env) (m : method) (Nsteps : nat) (step_size beta1 beta2 : R) : St (opt * sim) unit := fun st =>
  match s_rho (snd st) with
  | Absent => (st, Raise AttributeError) (* 195 *)
  | PyNone => (st, Raise TypeError) (* 197: eps2rho takes two arguments *)
  | Val _ =>
      let st1 := (upd_current false (fst st), snd st) in (* 199 *)
      match m with
      | MLBFGS calls x => run_LBFGS e calls x st1
      | MGD => run_GD e step_size Nsteps st1
      | MADAM => run_ADAM e step_size beta1 beta2 Nsteps 0 (fun _ => 0%R) (fun _ => 0%R) st1
      | MOther => (st1, Raise ValueError)
      end
  end.

(* ------------------------------------------------------------------ *)
(** * scan_frequency *)

(** np.linspace(a, b, n)[i] *)
Definition linspace (a b : R) (n i : nat) : R :=
  if Nat.leb n 1 then a else (a + INR i * ((b - a) / INR (n - 1)))%R.
(** optimization.py:473-475 *)
Definition scan_freq (omega df : R) (Nf i : nat) : R :=
  (1 / 2 / PI * linspace (omega - omega * df / 2) (omega + omega * df / 2) Nf i)%R.

(** optimization.py:482-498; the copies are discarded *)
Fixpoint scan_loop (e : env) (fs : list R) : St (opt * sim) (list R) :=
  match fs with
  | [] => ret []
  | f :: t => fun st =>
      let '(o, s) := st in
      let sim_new := set_eps (s_eps s) (upd_omega (2 * PI * f)%R s) in (* 488-492 *)
      match compute_J e (upd_current false o, sim_new) with
      | ((o1, _), Raise x) => ((o1, s), Raise x)
      | ((o1, _), Ok J) =>
          match scan_loop e t (o1, s) with
          | (st2, Raise x) => (st2, Raise x)
          | (st2, Ok l) => (st2, Ok (J :: l))
          end
      end
  end.

(** number of leading [true]s: for i in idx: if not above[i]: break; num += 1 *)
Fixpoint lead (l : list bool) : nat :=
  match l with true :: t => S (lead t) | _ => O end.

(** optimization.py:501-514 *)
Definition num_above (objs : list R) : nat :=
  let Nf := List.length objs in
  let HM := (rmax Nf (fun i => List.nth i objs 0%R) / 2)%R in
  let above := fun i => if Rlt_dec HM (List.nth i objs 0%R) then true else false in
  (lead (List.map above (List.seq (Nf / 2) (Nf - Nf / 2)))
   + lead (List.map above (List.rev (List.seq 0 (Nf / 2)))))%nat.

(** optimization.py:469-519, scan_frequency(Nf, df) *)
Definition scan_frequency (e : env) (Nf : nat) (df : R) : St (opt * sim) (list R * list R * R) := fun st =>
  let freqs := List.map (scan_freq (s_omega (snd st)) df Nf) (List.seq 0 Nf) in
  match scan_loop e freqs st with
  | (st1, Raise x) => (st1, Raise x)
  | (st1, Ok objs) =>
      match Nf with
      | O => (st1, Raise ValueError) (* np.max of an empty array *)
      | S O => (st1, Raise IndexError) (* freqs[1], 517 *)
      | _ => (st1, Ok (freqs, objs,
                 (INR (num_above objs) * (List.nth 1 freqs 0 - List.nth 0 freqs 0))%R))
      end
  end.
