(** Arrays as mutable objects: which numpy buffer the permittivity of a simulation is.
    simulation.py keeps the array object it is given (no copy, lines 49 and 101) and
    init_design_region either copies it, builds a new one, or writes into it. *)
From Coq Require Import Reals Lra Lia List ZArith Arith Bool String.
From Coquelicot Require Import Coquelicot.
From Verif Require Import Base Linear MCore MSim.
Import ListNotations.
Local Open Scope string_scope.

(** All arrays that exist, by identity (position in the list). *)
Definition heap := list (nd R).
Definition arr0 : nd R := mkNd 0 0 (fun _ => 0%R).
Definition deref (h : heap) (a : nat) : nd R := nth a h arr0.
(** x[...] = ... on the array with identity [a] *)
Fixpoint hwrite (h : heap) (a : nat) (v : nd R) : heap :=
  match h, a with
  | [], _ => []
  | _ :: t, O => v :: t
  | x :: t, S a' => x :: hwrite t a' v
  end.
(** a fresh array: new identity at the end *)
Definition halloc (h : heap) (v : nd R) : heap * nat := ((h ++ [v])%list, List.length h).

(** A simulation object: the identity of the array that the property eps_r returns, and
    its other attributes ([s_eps] of the record is the content the array had when
    the matrix was last built). *)
Definition hsim := (nat * sim)%type.
(** simulation.eps_r, simulation.py:87-89 *)
Definition h_eps (h : heap) (o : hsim) : nd R := deref h (fst o).
(** simulation.eps_r = array a, simulation.py:91-111 *)
Definition h_set_eps (h : heap) (a : nat) (o : hsim) : hsim := (a, set_eps (deref h a) (snd o)).
(** Simulation(omega, array a, ...), simulation.py:17-55, two-dimensional array *)
Definition h_Simulation (h : heap) (omega : R) (a : nat) (dl : R) (NPML : option (list Z)) (p : string) (L0 : R)
  : res hsim :=
  match Simulation omega (deref h a) dl NPML p L0 with
  | Ok s => Ok (a, s)
  | Raise x => Raise x
  end.

(** simulation.py:306-341, init_design_region with array identities.  'halfway'
    (line 318) binds the array without copying; 'full' and 'empty' copy (312, 324); the random styles build
    a new array (330, 338). *)
Definition h_init_design_region (rnd : nat -> R) (design : rvec) (eps_m : R) (style : string)
    (h : heap) (o : hsim) : heap * hsim :=
  let cur := h_eps h o in
  let '(h1, o1) :=
    match init_eps rnd design eps_m style cur with
    | Some b =>
        let v := mkNd (nd_nx cur) (nd_ny cur) b in
        if String.eqb style "halfway"
        then let h' := hwrite h (fst o) v in (h', h_set_eps h' (fst o) o)
        else let '(h', a') := halloc h v in (h', h_set_eps h' a' o)
    | None => (h, o)
    end in
  (h1, (fst o1, upd_rho (Val (fun k => eps2rho (nd_buf (h_eps h1 o1) k) eps_m)) (snd o1))).
