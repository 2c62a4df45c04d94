(** Model of data/get_stats.py: the numbers printed for a stored device.  The rounding of the
    format strings is left out. *)
From Coq Require Import Reals Lra Lia List ZArith Arith Bool String.
From Coquelicot Require Import Coquelicot.
From Verif Require Import Base Linear MCore MSim MFilter MOpt MMode MStruct MDevice.
Import ListNotations.
Local Open Scope string_scope.

(** what '{:.4f}'.format(v) shows; [None] is inf or nan *)
Definition as_float (v : pyval) : res (option R) :=
  match v with
  | VQuot q => Ok q
  | _ => match as_num v with Ok x => Ok (Some x) | Raise x => Raise x end
  end.
(** 100*self.name / self.W_in, get_stats.py:27-30 *)
Definition percent (name : string) : St device (option R) :=
  w <- getnum name ;; over_W_in (100 * w).

(** get_stats.py:6-31; D is read from the file as it was stored (load_device).  The index shift
    is computed anew if it is not stored; np.max of an empty array raises ValueError. *)
Definition get_stats (e : env) : St device (list (string * option R)) :=
  W <- getnum "W_in" ;; (* 11 *)
  d <- getS ;;
  a <- (match dv_dict d "index_shift" with
        | Some (VArray a) => ret a (* 14 *)
        | Some _ => raise TypeError
        | None => on_sim (compute_index_shift e) (* 16 *)
        end) ;;
  (if Nat.eqb (s_M (dv_sim d)) 0 then raise ValueError else ret tt) ;;;
  Q <- getattr "Q" ;; Q <- lift (as_float Q) ;; (* 20 *)
  B <- getnum "FWHM" ;; (* 21 *)
  let head := [("input power", Some (W * 1000)%R); ("index shift", Some (rmax (s_M (dv_sim d)) a));
               ("Q-factor", Q); ("bandwidth", Some (B / 10 ^ 9)%R)] in
  t <- get_type ;;
  if String.eqb t "two_port" then (* 23-25 *)
    l <- getattr "T_lin" ;; l <- lift (as_float l) ;;
    n <- getattr "T_nl" ;; n <- lift (as_float n) ;;
    ret (head ++ [("linear", l); ("nonlinear", n)])%list
  else if String.eqb t "ortho_port" then (* 26-30 *)
    a1 <- percent "W_right_lin" ;; a2 <- percent "W_top_lin" ;;
    a3 <- percent "W_right_nl" ;; a4 <- percent "W_top_nl" ;;
    ret (head ++ [("linear right", a1); ("linear top", a2); ("nonlinear right", a3); ("nonlinear top", a4)])%list
  else ret head.
