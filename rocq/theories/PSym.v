(** Grid-level form of the derivative operators and of the system matrix; lemmas for the
    symmetry theorems of PropsSym.v. *)
From Coq Require Import Reals Lra Lia List ZArith Arith Bool String.
From Coquelicot Require Import Coquelicot.
From Verif Require Import Base Linear MCore MSim Spec PCore PSim PropsCore.
Import ListNotations.

(* ------------------------------------------------------------------ *)
(** ** one axis *)
(** one-sided periodic difference along one axis; along an axis of one pixel the code takes the
    identity *)
Definition ax (s : side) (d : R) (N : nat) (u : nat -> C) (i : nat) : C :=
  if Nat.ltb 1 N then match s with
    | Fwd => ((u (next N i) - u i) / RtoC d)%C
    | Bwd => ((u i - u (prev N i)) / RtoC d)%C end
  else u i.
Definition pax (s : side) (omega L0 : R) (range : R * R) (d : R) (N Np : nat) (u : nat -> C) (i : nat) : C :=
  (/ create_sfactor range L0 s omega N Np i * ax s d N u i)%C.

Lemma ax_form s d N u i : d <> 0%R -> (i < N)%nat ->
  csum N (fun c => (axis_op s d N i c * u c)%C) = ax s d N u i.
Proof.
  intros Hd Hi. unfold axis_op, ax. destruct (Nat.ltb_spec 1 N) as [HN|HN]; [|apply csum_Id; assumption].
  unfold mscal. rewrite (csum_ext N _ (fun c => (RtoC (1 / d) * ((match s with Fwd => dfwd N | Bwd => dbwd N end) i c * u c))%C)) by (intros; ring).
  rewrite csum_scal. destruct s; [rewrite dfwd_sum by (assumption || lia)|rewrite dbwd_sum by (assumption || lia)];
    apply RtoC_inv_mult; assumption.
Qed.
Lemma ax_ext s d N u v i : (i < N)%nat -> (forall k, (k < N)%nat -> u k = v k) -> ax s d N u i = ax s d N v i.
Proof.
  intros Hi H. unfold ax. destruct (Nat.ltb 1 N); [|apply H; assumption].
  destruct s; rewrite !H by (try apply next_lt; try apply prev_lt; assumption); reflexivity.
Qed.
Lemma pax_ext s omega L0 range d N Np u v i : (i < N)%nat -> (forall k, (k < N)%nat -> u k = v k) ->
  pax s omega L0 range d N Np u i = pax s omega L0 range d N Np v i.
Proof. intros Hi H. unfold pax. rewrite (ax_ext s d N u v i Hi H). reflexivity. Qed.
Lemma pax_scal s omega L0 range d N Np (a : C) u i : d <> 0%R ->
  pax s omega L0 range d N Np (fun k => (a * u k)%C) i = (a * pax s omega L0 range d N Np u i)%C.
Proof.
  intro Hd. unfold pax, ax. assert (RtoC d <> RtoC 0) by (apply RtoC_neq0; assumption).
  destruct (Nat.ltb 1 N); [|ring]. unfold Cdiv. destruct s; ring.
Qed.
Lemma pax_no_pml s omega L0 range d N u i : pax s omega L0 range d N 0 u i = ax s d N u i.
Proof. unfold pax. rewrite sfactor_no_pml. field. apply RtoC_neq0; lra. Qed.

(* ------------------------------------------------------------------ *)
(** ** two axes *)
Section Grid.
Variables (omega L0 : R) (Nx Ny : nat) (NPML : nat * nat) (xr yr : R * R).
Let M := (Nx * Ny)%nat.
Let d := dL Nx Ny xr yr.
Hypothesis (Hdx : fst d <> 0%R) (Hdy : snd d <> 0%R).
Let DD w s := make_deriv w s omega L0 Nx Ny NPML xr yr.
Let px s := pax s omega L0 xr (fst d) Nx (fst NPML).
Let py s := pax s omega L0 yr (snd d) Ny (snd NPML).

Lemma DDx_grid s v i j : (i < Nx)%nat -> (j < Ny)%nat ->
  mv M (DD AxX s) v (pix Ny i j) = px s (fun c => v (pix Ny c j)) i.
Proof.
  intros Hi Hj. unfold M, DD, px, pix, pax. rewrite DDx_form by assumption. unfold axis_op_pml.
  rewrite <- (ax_form s (fst d) Nx (fun c => v (c * Ny + j)%nat)) by assumption. rewrite <- csum_scal.
  apply csum_ext; intros; unfold d; ring.
Qed.
Lemma DDy_grid s v i j : (i < Nx)%nat -> (j < Ny)%nat ->
  mv M (DD AxY s) v (pix Ny i j) = py s (fun c => v (pix Ny i c)) j.
Proof.
  intros Hi Hj. unfold M, DD, py, pix, pax. rewrite DDy_form by assumption. unfold axis_op_pml.
  rewrite <- (ax_form s (snd d) Ny (fun c => v (i * Ny + c)%nat)) by assumption. rewrite <- csum_scal.
  apply csum_ext; intros; unfold d; ring.
Qed.
Lemma A_grid eps p av x i j : (i < Nx)%nat -> (j < Ny)%nat ->
  mv M (fst (construct_A omega xr yr Nx Ny eps NPML p L0 av)) x (pix Ny i j) =
  (px Fwd (fun c => Ax_g L0 Nx Ny p av eps (pix Ny c j) * px Bwd (fun c' => x (pix Ny c' j)) c) i
   + py Fwd (fun c => Ay_g L0 Nx Ny p av eps (pix Ny i c) * py Bwd (fun c' => x (pix Ny i c')) c) j
   + Ad_g omega L0 p eps (pix Ny i j) * x (pix Ny i j))%C.
Proof.
  intros Hi Hj. assert (Hk: (pix Ny i j < M)%nat) by (apply flat_lt; assumption).
  set (Xm := mm M (mm M (DD AxX Fwd) (mdiag (Ax_g L0 Nx Ny p av eps))) (DD AxX Bwd)).
  set (Ym := mm M (mm M (DD AxY Fwd) (mdiag (Ay_g L0 Nx Ny p av eps))) (DD AxY Bwd)).
  rewrite (mv_ext M _ (mplus (mplus Xm Ym) (mdiag (Ad_g omega L0 p eps))) x x); [|
    intros r c Hr Hc; rewrite A_decomp by assumption; reflexivity | apply veq_refl | exact Hk].
  rewrite !mv_mplus, mv_diag by assumption. unfold Xm, Ym. rewrite !mv_mm. f_equal. f_equal.
  - rewrite DDx_grid by assumption. apply pax_ext; [assumption|]. intros c Hc.
    rewrite mv_diag by (apply flat_lt; assumption). rewrite DDx_grid by assumption. reflexivity.
  - rewrite DDy_grid by assumption. apply pax_ext; [assumption|]. intros c Hc.
    rewrite mv_diag by (apply flat_lt; assumption). rewrite DDy_grid by assumption. reflexivity.
Qed.
End Grid.

(** grid form of "x solves the system" *)
Lemma solves_grid n m A x b :
  solves (n * m) A x b <-> (forall i j, (i < n)%nat -> (j < m)%nat -> mv (n * m) A x (pix m i j) = b (pix m i j)).
Proof.
  split; intro H.
  - intros i j Hi Hj. apply (H (pix m i j)). apply flat_lt; assumption.
  - intros k Hk. assert (Hm: (0 < m)%nat) by (destruct m; [rewrite Nat.mul_0_r in Hk; lia|lia]).
    rewrite <- (flat_eta m k Hm). apply (H (k / m)%nat (k mod m)%nat).
    + apply (flat_div_lt n m k Hk).
    + apply (flat_mod_lt n m k Hk).
Qed.

(** averaged permittivity at a pixel *)
Lemma eps_dir_x av L0 Nx Ny (eps : vec) i j : (i < Nx)%nat -> (j < Ny)%nat ->
  eps_dir AxX av L0 Nx Ny eps (pix Ny i j) =
  (if av then (RtoC (EPSILON_0 * L0) * eps (pix Ny (prev Nx i) j) + RtoC (EPSILON_0 * L0) * eps (pix Ny i j)) / RtoC 2
   else RtoC (EPSILON_0 * L0) * eps (pix Ny i j))%C.
Proof.
  intros Hi Hj. unfold eps_dir. destruct av; [|reflexivity]. unfold grid_average, roll1, pix.
  rewrite flat_div, flat_mod by assumption.
  replace ((i + Nx - 1) mod Nx)%nat with (prev Nx i); [reflexivity|].
  destruct i; cbn [prev].
  - rewrite Nat.mod_small; lia.
  - replace (S i + Nx - 1)%nat with (i + 1 * Nx)%nat by lia. rewrite Nat.mod_add by lia. rewrite Nat.mod_small; lia.
Qed.
Lemma eps_dir_y av L0 Nx Ny (eps : vec) i j : (i < Nx)%nat -> (j < Ny)%nat ->
  eps_dir AxY av L0 Nx Ny eps (pix Ny i j) =
  (if av then (RtoC (EPSILON_0 * L0) * eps (pix Ny i (prev Ny j)) + RtoC (EPSILON_0 * L0) * eps (pix Ny i j)) / RtoC 2
   else RtoC (EPSILON_0 * L0) * eps (pix Ny i j))%C.
Proof.
  intros Hi Hj. unfold eps_dir. destruct av; [|reflexivity]. unfold grid_average, roll1, pix.
  rewrite flat_div, flat_mod by assumption.
  replace ((j + Ny - 1) mod Ny)%nat with (prev Ny j); [reflexivity|].
  destruct j; cbn [prev].
  - rewrite Nat.mod_small; lia.
  - replace (S j + Ny - 1)%nat with (j + 1 * Ny)%nat by lia. rewrite Nat.mod_add by lia. rewrite Nat.mod_small; lia.
Qed.

(* ------------------------------------------------------------------ *)
(** ** moving a system along a renumbering of the pixels *)
Definition renumber (n n' : nat) (f g : nat -> nat) : Prop :=
  (forall k, (k < n)%nat -> (f k < n')%nat /\ g (f k) = k) /\
  (forall k, (k < n')%nat -> (g k < n)%nat /\ f (g k) = k).
Definition moved (n n' : nat) (f g : nat -> nat) (A A' : mat) : Prop :=
  forall (x : vec) k, (k < n)%nat -> mv n' A' (fun q => x (g q)) (f k) = mv n A x k.
Lemma moved_nonsingular n n' f g A A' : renumber n n' f g -> moved n n' f g A A' ->
  nonsingular n A -> nonsingular n' A'.
Proof.
  intros [H1 H2] HM HA. apply injective_nonsingular. intros y Hy q Hq.
  destruct (H2 q Hq) as [Hg Eg]. rewrite <- Eg.
  apply (nonsingular_injective n A (fun k => y (f k)) HA); [|assumption].
  intros k Hk. rewrite <- HM by assumption. rewrite <- (Hy (f k)) by (apply H1; assumption).
  apply mv_ext_v. intros r Hr. cbv beta. rewrite (proj2 (H2 r Hr)). reflexivity.
Qed.
Lemma moved_solution n n' f g A A' x b y b' : renumber n n' f g -> moved n n' f g A A' ->
  nonsingular n A -> (forall k, (k < n)%nat -> b' (f k) = b k) ->
  solves n A x b -> solves n' A' y b' -> forall k, (k < n)%nat -> y (f k) = x k.
Proof.
  intros HR HM HA Hb HX HY k Hk. assert (HA' := moved_nonsingular _ _ _ _ _ _ HR HM HA).
  assert (HZ: solves n' A' (fun q => x (g q)) b').
  { intros q Hq. destruct HR as [H1 H2]. destruct (H2 q Hq) as [Hg Eg].
    change (mv n' A' (fun q => x (g q)) q = b' q). rewrite <- Eg, HM, Hb by assumption. apply (HX (g q) Hg). }
  destruct HR as [H1 H2]. destruct (H1 k Hk) as [Hf Ef].
  rewrite (solves_unique n' A' y _ b' HA' HY HZ (f k) Hf). rewrite Ef. reflexivity.
Qed.
