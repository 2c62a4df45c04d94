(** Model of the objectives of the example notebooks (Notebooks/Splitter.ipynb,
    Splitter_4.ipynb, 2_port.ipynb, 3_port.ipynb, T_port.ipynb) and of the numbers they are normalized
    with.  Cells are counted from 0, markdown cells included.  The same objectives are
    defined in data/gif_generator_splitter.py:49-93 and data/gif_generator_Tport.py:51-102.
    Plots and printed text are left out.  Division by a normalization of 0 (nan in numpy)
    is Coq's division; every theorem asks for a non-zero one. *)
From Coq Require Import Reals Lra Lia List ZArith Arith Bool String.
From Coquelicot Require Import Coquelicot.
From Verif Require Import Base Linear MCore MSim MFilter MOpt MMode.
Import ListNotations.
Local Open Scope string_scope.

(** sim = Simulation(omega, eps, dl, NPML, 'Ez'); sim.add_mode(m); sim.setup_modes()
    (Splitter.ipynb cells 7, 9, 13; Splitter_4.ipynb the same; 2_port.ipynb cells 5, 7;
    T_port.ipynb cells 5, 7) *)
(** The notebooks use the default length scale; it is a parameter [L0] here. *)
Definition placed (e : env) (omega : R) (eps : nd R) (dl : R) (NPML : list Z) (L0 : R) (m : mode) : res sim :=
  rbind (Simulation omega eps dl (Some NPML) "Ez" L0) (fun s =>
  match (add_mode m ;;; setup_modes e) s with
  | (s', Ok _) => Ok s'
  | (_, Raise x) => Raise x
  end).

(** np.abs(sim.src) *)
Definition profile (s : sim) : rvec := fun k => Cmod (nd_buf (s_src s) k).

(** the Ez of sim.solve_fields() *)
Definition Ez_of (e : env) (s : sim) : res vec :=
  match solve_fields e false false s with
  | (_, Ok (_, _, X)) => Ok X
  | (_, Raise x) => Raise x
  end.

(** How a field is weighed with a profile: npa.sum(npa.square(npa.abs(e*J))) (Splitter,
    Splitter_4, cell 17) or npa.sum(npa.square(npa.abs(e))*J) (2_port cell 10, T_port cell 11) *)
Inductive weighing := Squared | Plain.
Definition weighed (w : weighing) (M : nat) (F : vec) (P : rvec) : R :=
  match w with
  | Squared => rsum M (fun k => Cmod (F k * RtoC (P k))%C ^ 2)%R
  | Plain => rsum M (fun k => Cmod (F k) ^ 2 * P k)%R
  end.
(** J / np.sqrt(SCALE) (Splitter, Splitter_4, cell 13) or J / SCALE (2_port, T_port, cell 7) *)
Definition normalized (w : weighing) (scale : R) (P : rvec) : rvec :=
  match w with
  | Squared => fun k => (P k / sqrt scale)%R
  | Plain => fun k => (P k / scale)%R
  end.

(** SCALE: the straight guide eps_wg with the mode m_in of amplitude amp, weighed with the
    profile of m_out (Splitter, Splitter_4, cell 13; 2_port, T_port, cell 7) *)
Definition guide_scale (e : env) (w : weighing) (omega : R) (eps_wg : nd R) (dl : R) (NPML : list Z) (L0 : R)
    (m_in m_out : mode) (amp : R) : res R :=
  rbind (placed e omega eps_wg dl NPML L0 (with_scale m_in amp)) (fun wg =>
  rbind (placed e omega eps_wg dl NPML L0 m_out) (fun out =>
  rbind (Ez_of e wg) (fun X =>
  Ok (weighed w (s_M wg) X (profile out))))).

(** the profiles of the ports (Splitter cell 9, Splitter_4 cell 9, 2_port cell 7, T_port cell 5) *)
Fixpoint profiles (e : env) (omega : R) (eps : nd R) (dl : R) (NPML : list Z) (L0 : R) (ports : list mode) : res (list rvec) :=
  match ports with
  | [] => Ok []
  | m :: t =>
      rbind (placed e omega eps dl NPML L0 m) (fun s =>
      rbind (profiles e omega eps dl NPML L0 t) (fun l => Ok (profile s :: l)))
  end.

(** linear_top, linear_bot, transmit_i, ...: what the ports of the device get.  [eps] is the
    structure in which the source is set up, [eps_p] the one in which the ports are (the
    same in Splitter, Splitter_4 and T_port, the straight guide in 2_port), [design] the
    permittivity that the simulation has when the objective is evaluated
    (simulation.eps_r = design). *)
Definition transmissions (e : env) (w : weighing) (omega : R) (eps eps_p eps_wg : nd R) (dl : R) (NPML : list Z) (L0 : R)
    (source : mode) (ports : list mode) (m_in m_out : mode) (amp : R) (design : nd R) : res (list R) :=
  rbind (placed e omega eps dl NPML L0 (with_scale source amp)) (fun s =>
  rbind (profiles e omega eps_p dl NPML L0 ports) (fun Ps =>
  rbind (guide_scale e w omega eps_wg dl NPML L0 m_in m_out amp) (fun scale =>
  rbind (Ez_of e (set_eps design s)) (fun X =>
  Ok (List.map (fun P => weighed w (s_M s) X (normalized w scale P)) Ps))))).

(** Splitter_4.ipynb cell 17: objfn = 1.0; for i in range(N): objfn *= N * transmit_i *)
Definition product_of (n : R) (l : list R) : R := fold_left (fun acc t => acc * (n * t))%R l 1%R.
(** autograd: the gradient of the weighed intensity, and of the product, factor by factor *)
Definition intensity_grad (F : vec) (P : rvec) : vec := fun k => (RtoC (2 * P k ^ 2) * Cconj (F k))%C.
Fixpoint product_grad (n : R) (M : nat) (F : vec) (acc : R) (dacc : vec) (Ps : list rvec) : vec :=
  match Ps with
  | [] => dacc
  | P :: t => product_grad n M F (acc * (n * weighed Squared M F P))
                (fun k => (RtoC (n * weighed Squared M F P) * dacc k + RtoC (acc * n) * intensity_grad F P k)%C) t
  end.
(** Splitter_4.ipynb cell 17, J(ez); N is the number of profiles *)
Definition splitter_N (M : nat) (Ps : list rvec) : pyfun :=
  let n := INR (List.length Ps) in
  mkFun 1 (fun Fs => product_of n (List.map (weighed Squared M (List.nth 0 Fs vzero)) Ps))
          (fun _ Fs => product_grad n M (List.nth 0 Fs vzero) 1 vzero Ps).
(** Splitter.ipynb cell 17, J(ez) = linear_top * linear_bot * 4 *)
Definition splitter (M : nat) (J_top J_bot : rvec) : pyfun :=
  mkFun 1 (fun Fs => let F := List.nth 0 Fs vzero in (1 * weighed Squared M F J_top * (1 * weighed Squared M F J_bot) * 4)%R)
          (fun _ Fs => let F := List.nth 0 Fs vzero in fun k =>
             (RtoC (4 * weighed Squared M F J_bot) * intensity_grad F J_top k
              + RtoC (4 * weighed Squared M F J_top) * intensity_grad F J_bot k)%C).
(** 2_port.ipynb cell 10, J(e, e_nl) *)
Definition two_port_J (M : nat) (J_out : rvec) : pyfun :=
  mkFun 2 (fun Fs => let e := List.nth 0 Fs vzero in let e_nl := List.nth 1 Fs vzero in
             (1 * weighed Plain M e J_out + -1 * weighed Plain M e_nl J_out)%R)
          (fun i Fs k => (RtoC (2 * (if Nat.eqb i 0 then 1 else -1) * J_out k) * Cconj (List.nth i Fs vzero k))%C).
(** T_port.ipynb cell 11, J(e, e_nl) *)
Definition T_port_J (M : nat) (J_right J_top : rvec) : pyfun :=
  mkFun 2 (fun Fs => let e := List.nth 0 Fs vzero in let e_nl := List.nth 1 Fs vzero in
             ((1 * weighed Plain M e J_right + -1 * weighed Plain M e J_top
               + -1 * weighed Plain M e_nl J_right + 1 * weighed Plain M e_nl J_top) / 2)%R)
          (fun i Fs k => (RtoC (2 * ((if Nat.eqb i 0 then 1 else -1) * (J_right k - J_top k) / 2)) * Cconj (List.nth i Fs vzero k))%C).
(** 3_port.ipynb cell 10, J(e, e_nl) *)
Definition three_port_J (M : nat) (J_top J_bot : rvec) : pyfun :=
  mkFun 2 (fun Fs => let e := List.nth 0 Fs vzero in let e_nl := List.nth 1 Fs vzero in
             (((1 * weighed Plain M e J_top - 1 * weighed Plain M e_nl J_top)
               + (1 * weighed Plain M e_nl J_bot - 1 * weighed Plain M e J_bot)) / 2)%R)
          (fun i Fs k => (RtoC (2 * ((if Nat.eqb i 0 then 1 else -1) * (J_top k - J_bot k) / 2)) * Cconj (List.nth i Fs vzero k))%C).
