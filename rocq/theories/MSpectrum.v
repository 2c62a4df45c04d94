(** Model of data/spectrum_plotter.py: scan_frequency and get_spectrum (drawing, sublabels,
    progress bars and the files of plot_from_data are left out). *)
From Coq Require Import Reals Lra Lia List ZArith Arith Bool String.
From Coquelicot Require Import Coquelicot.
From Verif Require Import Base Linear MCore MSim MFilter MOpt MMode MStruct MDevice.
Import ListNotations.
Local Open Scope string_scope.

(** spectrum_plotter.py:50-69, the loop over the frequencies; the deep copies are discarded.
    [E_prev] is not changed by the solves. *)
Fixpoint spectrum_loop (e : env) (probe : St sim R) (E_prev : vec) (fs : list R) : St device (list (option R)) :=
  match fs with
  | [] => ret []
  | f :: t => fun d =>
      let s := dv_sim d in
      let sim_new := set_eps (s_eps s) (upd_omega (2 * PI * f)%R s) in (* 56-60 *)
      match solve_fields_nl e false (Some E_prev) "hybrid" (1 / 10 ^ 10)%R 50 sim_new with (* 64 *)
      | (_, Raise x) => (d, Raise x)
      | (s1, Ok _) =>
          match probe s1 with
          | (_, Raise x) => (d, Raise x)
          | (_, Ok w) => (q <- over_W_in w ;; l <- spectrum_loop e probe E_prev t ;; ret (q :: l)) d (* 67-68 *)
          end
      end
  end.

(** spectrum_plotter.py:33-70, scan_frequency(D, probe, Nf, df) *)
Definition spectrum_scan (e : env) (probe : St sim R) (Nf : nat) (df : R) : St device (list R * list (option R)) :=
  d <- getS ;;
  let freqs := List.map (scan_freq (s_omega (dv_sim d)) df Nf) (List.seq 0 Nf) in (* 37-39 *)
  F <- on_sim (solve_fields e false false) ;; (* 44 *)
  l <- spectrum_loop e probe (snd F) freqs ;;
  ret (freqs, l).

(** lambda simulation: simulation.flux_probe( args , nl=nl) *)
Definition spectrum_probe (d : device) (args : St device (string * (Z * Z) * Z)) (nl : bool) : St sim R := fun s =>
  match snd (args d) with
  | Ok a => (s, flux_probe (fst (fst a)) (snd (fst a)) (snd a) nl s)
  | Raise x => (s, Raise x)
  end.

(** spectrum_plotter.py:88-91; [freqs] is unbound when there is no probe *)
Fixpoint spectra_loop (e : env) (probes : list (St sim R)) (freqs : option (list R)) : St device (option (list R) * list (list (option R))) :=
  match probes with
  | [] => ret (freqs, [])
  | p :: t =>
      r <- spectrum_scan e p 300 (1 / 200) ;;
      l <- spectra_loop e t (Some (fst r)) ;;
      ret (fst l, snd r :: snd l)
  end.

(** spectrum_plotter.py:73-93, get_spectrum(D).  Line 85 names probe_right_low, whose definition
    (81) is commented out; for other structures [probes] is unbound at line 88. *)
Definition get_spectrum (e : env) : St device (list R * list (list (option R))) :=
  t <- get_type ;;
  if String.eqb t "two_port" then
    d <- getS ;;
    r <- spectra_loop e [spectrum_probe d args_two_out false; spectrum_probe d args_two_out true] None ;;
    match fst r with Some f => ret (f, snd r) | None => raise UnboundLocalError end
  else if String.eqb t "ortho_port" then raise NameError
  else raise UnboundLocalError.
