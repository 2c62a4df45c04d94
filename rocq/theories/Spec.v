(** Independent specification vocabulary.  Nothing here mentions the model of the
    code; these definitions say what the English properties say. *)
From Coq Require Import Reals Lra Lia List ZArith Arith Bool.
From Coquelicot Require Import Coquelicot.
From Verif Require Import Base Linear.

(** pixel (i,j) of a flattened C-ordered array with Ny columns *)
Definition pix (Ny i j : nat) : nat := (i * Ny + j)%nat.

(** neighbours on a periodic axis with N pixels *)
Definition next (N i : nat) : nat := if Nat.eqb (S i) N then O else S i.
Definition prev (N i : nat) : nat := match i with O => (N - 1)%nat | S k => k end.

(** periodic forward / backward differences of a field *)
Definition diff_xf (d : R) (Nx Ny : nat) (v : nat -> C) (i j : nat) : C :=
  ((v (pix Ny (next Nx i) j) - v (pix Ny i j)) / RtoC d)%C.
Definition diff_xb (d : R) (Nx Ny : nat) (v : nat -> C) (i j : nat) : C :=
  ((v (pix Ny i j) - v (pix Ny (prev Nx i) j)) / RtoC d)%C.
Definition diff_yf (d : R) (Nx Ny : nat) (v : nat -> C) (i j : nat) : C :=
  ((v (pix Ny i (next Ny j)) - v (pix Ny i j)) / RtoC d)%C.
Definition diff_yb (d : R) (Nx Ny : nat) (v : nat -> C) (i j : nat) : C :=
  ((v (pix Ny i j) - v (pix Ny i (prev Ny j))) / RtoC d)%C.

(** periodic five-point Laplacian *)
Definition laplacian (d : R) (Nx Ny : nat) (v : nat -> C) (i j : nat) : C :=
  ((v (pix Ny (next Nx i) j) + v (pix Ny (prev Nx i) j)
    + v (pix Ny i (next Ny j)) + v (pix Ny i (prev Ny j)) - RtoC 4 * v (pix Ny i j))
   / RtoC (d * d))%C.

(** [x] solves the n x n system A x = b *)
Definition solves (n : nat) (A : nat -> nat -> C) (x b : nat -> C) : Prop :=
  forall r, (r < n)%nat -> csum n (fun c => (A r c * x c)%C) = b r.

(** g_0, g_1, ... are the gradients of the real function J of a list of fields (n complex
    pixels each) at the fields Fs, in the convention of autograd (g = dJ/dRe - i dJ/dIm):
    J(Fs + h) = J(Fs) + sum_i Re(g_i . h_i) + o(|h|). *)
Definition field_change (n : nat) (Fs Gs : list (nat -> C)) : R :=
  rsum (List.length Fs) (fun i => rsum n (fun k => Cmod (List.nth i Gs (fun _ => RtoC 0) k - List.nth i Fs (fun _ => RtoC 0) k)%C)).
Definition is_gradient (n : nat) (J : list (nat -> C) -> R) (Fs : list (nat -> C)) (g : nat -> nat -> C) : Prop :=
  forall eps : R, (0 < eps)%R -> exists delta : R, (0 < delta)%R /\
    forall Gs, List.length Gs = List.length Fs -> (field_change n Fs Gs < delta)%R ->
      (Rabs (J Gs - J Fs - rsum (List.length Fs) (fun i =>
               Re (csum n (fun k => (g i k * (List.nth i Gs (fun _ => RtoC 0) k - List.nth i Fs (fun _ => RtoC 0) k))%C))))
        <= eps * field_change n Fs Gs)%R.

(** Discrete Maxwell equations (time convention of the code) on given difference
    operators, for pixels k < M: Ez polarization, scalar mu, permittivity eps, current J. *)
Definition maxwell_Ez (M : nat) (Dxf Dxb Dyf Dyb : mat) (omega mu : R) (eps J hx hy ez : vec) : Prop :=
  forall k, (k < M)%nat ->
    mv M Dyb ez k = (- (Ci * RtoC omega * RtoC mu) * hx k)%C /\
    mv M Dxb ez k = (Ci * RtoC omega * RtoC mu * hy k)%C /\
    (mv M Dxf hy k - mv M Dyf hx k = Ci * RtoC omega * eps k * ez k + J k)%C.
(** Hz polarization; epsx is the permittivity seen by Ex, epsy the one seen by Ey. *)
Definition maxwell_Hz (M : nat) (Dxf Dxb Dyf Dyb : mat) (omega mu : R) (epsx epsy J ex ey hz : vec) : Prop :=
  forall k, (k < M)%nat ->
    mv M Dyb hz k = (Ci * RtoC omega * epsx k * ex k)%C /\
    mv M Dxb hz k = (- (Ci * RtoC omega * epsy k) * ey k)%C /\
    (mv M Dyf ex k - mv M Dxf ey k = Ci * RtoC omega * RtoC mu * hz k + J k)%C.
