(** Model of angler/filter.py: density filter, projection and permittivity maps. *)
From Coq Require Import Reals Lra Lia List ZArith Arith Bool String.
From Coquelicot Require Import Coquelicot.
From Verif Require Import Base Linear MCore MSim.
Import ListNotations.

(** filter.py:10-11, wrap *)
Definition wrap (i N : Z) : Z :=
  (i + (if Z.leb N i then i - N else 0) + (if Z.ltb i 0 then i + N else 0))%Z.
(** filter.py:13-14, dist, for two points with integer coordinates *)
Definition dist (a b : Z * Z) : R :=
  sqrt (IZR ((fst a - fst b) * (fst a - fst b) + (snd a - snd b) * (snd a - snd b)))%R.
(** filter.py:16-17, sub2ind *)
Definition sub2ind (Ny rows cols : Z) : Z := (rows * Ny + cols)%Z.

(** python range(a, b) *)
Definition zrange (a b : Z) : list Z :=
  List.map (fun k => (a + Z.of_nat k)%Z) (List.seq 0 (Z.to_nat (b - a))).

(** filter.py:54-69, the loop over j_diff for one i_diff.  The variable i2 is set once
    before this loop (53) and re-wrapped in every pass (59); r2 is computed before
    the wrap of the same pass (56). Yields the appended (col_index, val). *)
Fixpoint filter_cols (Rr Nx Ny i1 j1 : Z) (jdiffs : list Z) (i2 : Z) : list (Z * R) :=
  match jdiffs with
  | [] => []
  | jd :: t =>
      let j2 := (j1 + jd)%Z in
      let val := (IZR Rr - dist (i1, j1) (i2, j2))%R in
      let i2' := wrap i2 Nx in
      let j2' := wrap j2 Ny in
      (if Rlt_dec 0 val then [(sub2ind Ny i2' j2', val)] else [])
        ++ filter_cols Rr Nx Ny i1 j1 t i2'
  end.
(** filter.py:52-69, all entries of the row of pixel (i1,j1) *)
Definition filter_row (Rr Nx Ny i1 j1 : Z) : list (Z * R) :=
  let diffs := zrange (- Rr) (Rr + 1) in (* 21 *)
  List.flat_map (fun id => filter_cols Rr Nx Ny i1 j1 diffs (i1 + id)%Z) diffs.

(** filter.py:32-40: rows (columns) of pixels that are filtered *)
Definition filter_range (Rr N npml : Z) : list Z :=
  if Z.eqb npml 0 then zrange 0 N else zrange (Rr + npml + 1) (N - Rr - 1 - npml).

(** filter.py:28-69: the triplets (row_index, col_index, val) *)
Definition filter_triplets (Rr Nx Ny npx npy : Z) : list (Z * (Z * R)) :=
  List.flat_map (fun i1 =>
    List.flat_map (fun j1 =>
      List.map (fun cv => (sub2ind Ny i1 j1, cv)) (filter_row Rr Nx Ny i1 j1))
      (filter_range Rr Ny npy))
    (filter_range Rr Nx npx).

Definition lsum {T} (f : T -> R) (l : list T) : R := fold_right (fun x a => (f x + a)%R) 0%R l.

(** scipy csr_matrix((vals,(rows,cols)), shape=(N,N)): duplicates are added, an index
    outside the shape raises ValueError. *)
Definition csr_matrix (l : list (Z * (Z * R))) (N : Z) : res rmat :=
  if forallb (fun t => let '(r, (c, _)) := t in
                (Z.leb 0 r && Z.ltb r N && Z.leb 0 c && Z.ltb c N)%bool) l
  then Ok (fun r c => lsum (fun t => let '(r', (c', v)) := t in
                        if (Z.eqb r' (Z.of_nat r) && Z.eqb c' (Z.of_nat c))%bool then v else 0%R) l)
  else Raise ValueError.

(** filter.py:19-86, get_W(Nx, Ny, design_region, NPML, R).  W_des (78) is not used. *)
Definition get_W (Nx Ny : nat) (design : rvec) (NPML : nat * nat) (Rr : nat) : res rmat :=
  let N := (Nx * Ny)%nat in
  match csr_matrix (filter_triplets (Z.of_nat Rr) (Z.of_nat Nx) (Z.of_nat Ny)
                      (Z.of_nat (fst NPML)) (Z.of_nat (snd NPML))) (Z.of_nat N) with
  | Raise x => Raise x
  | Ok W =>
      let norm0 := fun r => rsum N (fun c => W r c) in (* 80 *)
      let norm := fun r => if Req_EM_T (norm0 r) 0 then 1%R else norm0 r in (* 81 *)
      let W1 := fun r c => (W r c * (1 / norm c))%R in (* 82-84 *)
      Ok (fun r c => (design r * W1 r c + (if Nat.eqb r c then 1 - design r else 0))%R) (* 86 *)
  end.

(** filter.py:93-99, rho2rhot on the flattened array of N pixels *)
Definition rho2rhot (N : nat) (rho : rvec) (W : rmat) : rvec := rmv N W rho.
(** filter.py:102-106, rhot2rhob (elementwise) *)
Definition rhot2rhob (rhot eta beta : R) : R :=
  ((tanh (beta * eta) + tanh (beta * (rhot - eta))) / (tanh (beta * eta) + tanh (beta * (1 - eta))))%R.
(** filter.py:109-111, rhob2eps; eps2rho (114-116) is in MSim.v *)
Definition rhob2eps (rhob eps_m : R) : R := (1 + rhob * (eps_m - 1))%R.
(** filter.py:119-123, rho2eps *)
Definition rho2eps (N : nat) (rho : rvec) (eps_m : R) (W : rmat) (eta beta : R) : rvec :=
  fun k => rhob2eps (rhot2rhob (rho2rhot N rho W k) eta beta) eps_m.
(** filter.py:134-139, drhob_drhot (elementwise) *)
Definition drhob_drhot (rhot eta beta : R) : R :=
  ((beta - beta * (tanh (beta * (rhot - eta))) ^ 2) / (tanh (beta * eta) + tanh (beta * (1 - eta))))%R.
(** filter.py:141-142, deps_drhob *)
Definition deps_drhob (eps_m : R) : R := (eps_m - 1)%R.
(** sp.eye(N): the filter matrix when no radius is given, optimization.py:27-31 *)
Definition rId : rmat := fun r c => if Nat.eqb r c then 1%R else 0%R.
