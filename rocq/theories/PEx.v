(** Concrete systems that meet the hypotheses of the theorems: a family of
    simulations whose matrix is non-singular, and an exact solver. *)
From Coq Require Import Reals Lra Lia List ZArith Arith Bool String.
From Coquelicot Require Import Coquelicot.
From Verif Require Import Base Linear MCore MSim Spec PCore PSim.
Import ListNotations.

Lemma max_index n (x : vec) : (0 < n)%nat ->
  exists p, (p < n)%nat /\ forall j, (j < n)%nat -> (Cmod (x j) <= Cmod (x p))%R.
Proof.
  induction n; intro Hn; [lia|]. destruct n.
  - exists O; split; [lia|]. intros j Hj; replace j with O by lia; lra.
  - destruct IHn as [p [Hp Hpm]]; [lia|].
    destruct (Rle_dec (Cmod (x (S n))) (Cmod (x p))).
    + exists p; split; [lia|]. intros j Hj. destruct (Nat.eq_dec j (S n)) as [->|]; [assumption|apply Hpm; lia].
    + exists (S n); split; [lia|]. intros j Hj. destruct (Nat.eq_dec j (S n)) as [->|]; [lra|].
      assert (Cmod (x j) <= Cmod (x p))%R by (apply Hpm; lia). lra.
Qed.
Lemma nonsingular_max n A :
  (forall x p, (p < n)%nat -> (forall j, (j < n)%nat -> (Cmod (x j) <= Cmod (x p))%R) ->
     mv n A x p = RtoC 0 -> x p = RtoC 0) -> nonsingular n A.
Proof.
  intro H. apply injective_nonsingular. intros x Hx j Hj.
  destruct (max_index n x) as [p [Hp Hpm]]; [lia|].
  assert (E := H x p Hp Hpm (Hx p Hp)). apply Cmod_eq_0.
  specialize (Hpm j Hj). rewrite E, Cmod_0 in Hpm. assert (0 <= Cmod (x j))%R by apply Cmod_ge_0. lra.
Qed.

(** ** Ez: rows of the matrix without PML *)
Lemma mv_construct_Ez_stencil omega L0 Nx Ny xr yr eps av d X i j :
  (2 <= Nx)%nat -> (2 <= Ny)%nat -> (i < Nx)%nat -> (j < Ny)%nat ->
  dL Nx Ny xr yr = (d, d) -> d <> 0%R -> L0 <> 0%R ->
  mv (Nx * Ny) (fst (construct_A omega xr yr Nx Ny eps (0,0)%nat PolEz L0 av)) X (pix Ny i j) =
  (RtoC (1 / (MU_0 * L0)) * laplacian d Nx Ny X i j
   + RtoC (omega ^ 2 * (EPSILON_0 * L0)) * eps (pix Ny i j) * X (pix Ny i j))%C.
Proof.
  intros HNx HNy Hi Hj Hd Hd0 HL.
  assert (Hk: (pix Ny i j < Nx * Ny)%nat) by (apply flat_lt; assumption).
  assert (HdC: RtoC d <> RtoC 0) by (apply RtoC_neq0; assumption).
  rewrite mv_construct_Ez by assumption. cbv zeta. unfold make_derivs, Dxf, Dxb, Dyf, Dyb.
  rewrite !(make_deriv_no_pml _ Fwd) by assumption. rewrite Hd; cbn [fst snd].
  rewrite Dxf_stencil, Dyf_stencil by assumption. unfold diff_xf, diff_yf.
  rewrite !(make_deriv_no_pml _ Bwd) by
    (unfold pix; apply flat_lt; (assumption || (apply next_lt; assumption))).
  rewrite Hd; cbn [fst snd].
  rewrite !Dxb_stencil, !Dyb_stencil by (try assumption; apply next_lt; assumption).
  unfold diff_xb, diff_yb. rewrite !prev_next by assumption.
  replace (RtoC (omega ^ 2 * (EPSILON_0 * L0))) with (RtoC (omega ^ 2) * RtoC (EPSILON_0 * L0))%C by (rewrite <- RtoC_mult; reflexivity).
  unfold laplacian. rewrite !RtoC_mult. replace (RtoC 4) with (RtoC 1 + RtoC 1 + RtoC 1 + RtoC 1)%C by cring. field. assumption.
Qed.

Lemma pix_bound Nx Ny k : (k < Nx * Ny)%nat -> exists i j, (i < Nx)%nat /\ (j < Ny)%nat /\ k = pix Ny i j.
Proof.
  intro Hk. exists (k / Ny)%nat, (k mod Ny)%nat.
  split; [apply flat_div_lt; assumption|]. split; [eapply flat_mod_lt; eassumption|].
  unfold pix. rewrite flat_eta; [reflexivity|]. destruct Ny; lia.
Qed.

Lemma Cmod_triangle4 a b c d : (Cmod (a + b + c + d)%C <= Cmod a + Cmod b + Cmod c + Cmod d)%R.
Proof.
  eapply Rle_trans; [apply Cmod_triangle|]. apply Rplus_le_compat_r.
  eapply Rle_trans; [apply Cmod_triangle|]. apply Rplus_le_compat_r. apply Cmod_triangle.
Qed.

Lemma Ez_nonsingular omega L0 Nx Ny xr yr (eps : rvec) av d :
  (2 <= Nx)%nat -> (2 <= Ny)%nat -> dL Nx Ny xr yr = (d, d) -> (0 < d)%R -> (0 < L0)%R ->
  (forall k, (k < Nx * Ny)%nat -> (8 < omega ^ 2 * (EPSILON_0 * L0) * (MU_0 * L0) * (d * d) * eps k)%R) ->
  nonsingular (Nx * Ny) (fst (construct_A omega xr yr Nx Ny (cvec eps) (0,0)%nat PolEz L0 av)).
Proof.
  intros HNx HNy Hd Hd0 HL He. apply nonsingular_max. intros x p Hp Hmax H.
  destruct (pix_bound _ _ _ Hp) as (i & j & Hi & Hj & ->).
  rewrite (mv_construct_Ez_stencil omega L0 Nx Ny xr yr (cvec eps) av d) in H by (try assumption; lra).
  unfold laplacian in H.
  set (xp := x (pix Ny i j)) in *.
  set (xe := x (pix Ny (next Nx i) j)) in *. set (xw := x (pix Ny (prev Nx i) j)) in *.
  set (xn := x (pix Ny i (next Ny j))) in *. set (xs := x (pix Ny i (prev Ny j))) in *.
  assert (Hb: (Cmod xe <= Cmod xp /\ Cmod xw <= Cmod xp /\ Cmod xn <= Cmod xp /\ Cmod xs <= Cmod xp)%R).
  { repeat split; apply Hmax; apply flat_lt; try assumption; (apply next_lt || apply prev_lt); assumption. }
  assert (Hmu: (0 < MU_0 * L0)%R) by (apply Rmult_lt_0_compat; [apply MU_0_pos|lra]).
  assert (Hdd: (0 < d * d)%R) by nra.
  specialize (He _ Hp). set (g := (omega ^ 2 * (EPSILON_0 * L0) * (MU_0 * L0) * (d * d) * eps (pix Ny i j))%R) in *.
  assert (E: (RtoC (g - 4) * xp)%C = (- (xe + xw + xn + xs))%C).
  { assert (E0: ((xe + xw + xn + xs - RtoC 4 * xp) + RtoC g * xp)%C = RtoC 0).
    { transitivity (RtoC (MU_0 * L0) * RtoC (d * d) *
        (RtoC (1 / (MU_0 * L0)) * ((xe + xw + xn + xs - RtoC 4 * xp) / RtoC (d * d)) +
          RtoC (omega ^ 2 * (EPSILON_0 * L0)) * cvec eps (pix Ny i j) * xp))%C.
      - unfold cvec, g.
        replace (omega ^ 2 * (EPSILON_0 * L0) * (MU_0 * L0) * (d * d) * eps (pix Ny i j))%R
          with ((omega ^ 2 * (EPSILON_0 * L0)) * (MU_0 * L0) * (d * d) * eps (pix Ny i j))%R by ring.
        rewrite (RtoC_mult _ (eps (pix Ny i j))), (RtoC_mult _ (d * d)), (RtoC_mult _ (MU_0 * L0)).
        rewrite RtoC_div by lra.
        field. split; apply RtoC_neq0; lra.
      - rewrite H. ring. }
    rewrite RtoC_minus. 
    replace ((RtoC g - RtoC 4) * xp)%C with ((xe + xw + xn + xs - RtoC 4 * xp) + RtoC g * xp - (xe + xw + xn + xs))%C by ring.
    rewrite E0. ring. }
  apply (f_equal Cmod) in E. rewrite Cmod_mult, Cmod_R, Cmod_opp in E.
  assert (T := Cmod_triangle4 xe xw xn xs). rewrite Rabs_pos_eq in E by lra.
  apply Cmod_eq_0. assert (0 <= Cmod xp)%R by apply Cmod_ge_0. nra.
Qed.

(** ** Hz: rows of the matrix without PML *)
Lemma mv_construct_Hz_stencil omega L0 Nx Ny xr yr eps av d X i j :
  (2 <= Nx)%nat -> (2 <= Ny)%nat -> (i < Nx)%nat -> (j < Ny)%nat ->
  dL Nx Ny xr yr = (d, d) -> d <> 0%R ->
  let ex i j := (/ eps_dir AxX av L0 Nx Ny eps (pix Ny i j))%C in
  let ey i j := (/ eps_dir AxY av L0 Nx Ny eps (pix Ny i j))%C in
  let u i j := X (pix Ny i j) in
  mv (Nx * Ny) (fst (construct_A omega xr yr Nx Ny eps (0,0)%nat PolHz L0 av)) X (pix Ny i j) =
  ((ex (next Nx i) j * (u (next Nx i) j - u i j) - ex i j * (u i j - u (prev Nx i) j)
    + (ey i (next Ny j) * (u i (next Ny j) - u i j) - ey i j * (u i j - u i (prev Ny j)))) / RtoC (d * d)
   + RtoC (omega ^ 2 * (MU_0 * L0)) * u i j)%C.
Proof.
  intros HNx HNy Hi Hj Hd Hd0 ex ey u.
  assert (Hk: (pix Ny i j < Nx * Ny)%nat) by (apply flat_lt; assumption).
  assert (HdC: RtoC d <> RtoC 0) by (apply RtoC_neq0; assumption).
  rewrite mv_construct_Hz by assumption. cbv zeta. unfold make_derivs, Dxf, Dxb, Dyf, Dyb.
  rewrite !(make_deriv_no_pml _ Fwd) by assumption. rewrite Hd; cbn [fst snd].
  rewrite Dxf_stencil, Dyf_stencil by assumption. unfold diff_xf, diff_yf.
  rewrite !(make_deriv_no_pml _ Bwd) by
    (unfold pix; apply flat_lt; (assumption || (apply next_lt; assumption))).
  rewrite Hd; cbn [fst snd].
  rewrite !Dxb_stencil, !Dyb_stencil by (try assumption; apply next_lt; assumption).
  unfold diff_xb, diff_yb. rewrite !prev_next by assumption. fold (ex i j) (ey i j) (ex (next Nx i) j) (ey i (next Ny j)).
  unfold u. rewrite !RtoC_mult. field. assumption.
Qed.

Lemma Hz_nonsingular omega L0 Nx Ny xr yr (eps : rvec) av d b :
  (2 <= Nx)%nat -> (2 <= Ny)%nat -> dL Nx Ny xr yr = (d, d) -> (0 < d)%R -> (0 <= b)%R ->
  (forall k, (k < Nx * Ny)%nat -> (Cmod (/ eps_dir AxX av L0 Nx Ny (cvec eps) k)%C <= b /\
                                   Cmod (/ eps_dir AxY av L0 Nx Ny (cvec eps) k)%C <= b)%R) ->
  (8 * b < omega ^ 2 * (MU_0 * L0) * (d * d))%R ->
  nonsingular (Nx * Ny) (fst (construct_A omega xr yr Nx Ny (cvec eps) (0,0)%nat PolHz L0 av)).
Proof.
  intros HNx HNy Hd Hd0 Hb0 He Hbig. apply nonsingular_max. intros x p Hp Hmax H.
  destruct (pix_bound _ _ _ Hp) as (i & j & Hi & Hj & ->).
  rewrite (mv_construct_Hz_stencil omega L0 Nx Ny xr yr (cvec eps) av d) in H by (try assumption; lra).
  cbv zeta in H.
  assert (Hin: (next Nx i < Nx)%nat) by (apply next_lt; assumption).
  assert (Hip: (prev Nx i < Nx)%nat) by (apply prev_lt; assumption).
  assert (Hjn: (next Ny j < Ny)%nat) by (apply next_lt; assumption).
  assert (Hjp: (prev Ny j < Ny)%nat) by (apply prev_lt; assumption).
  destruct (He (pix Ny i j)) as [Hx1 Hy1]; [assumption|].
  destruct (He (pix Ny (next Nx i) j)) as [Hx2 _]; [apply flat_lt; assumption|].
  destruct (He (pix Ny i (next Ny j))) as [_ Hy2]; [apply flat_lt; assumption|].
  assert (Hb1 := Hmax (pix Ny (next Nx i) j) ltac:(apply flat_lt; assumption)).
  assert (Hb2 := Hmax (pix Ny (prev Nx i) j) ltac:(apply flat_lt; assumption)).
  assert (Hb3 := Hmax (pix Ny i (next Ny j)) ltac:(apply flat_lt; assumption)).
  assert (Hb4 := Hmax (pix Ny i (prev Ny j)) ltac:(apply flat_lt; assumption)).
  set (e1 := (/ eps_dir AxX av L0 Nx Ny (cvec eps) (pix Ny i j))%C) in *.
  set (e2 := (/ eps_dir AxX av L0 Nx Ny (cvec eps) (pix Ny (next Nx i) j))%C) in *.
  set (e3 := (/ eps_dir AxY av L0 Nx Ny (cvec eps) (pix Ny i j))%C) in *.
  set (e4 := (/ eps_dir AxY av L0 Nx Ny (cvec eps) (pix Ny i (next Ny j)))%C) in *.
  set (xp := x (pix Ny i j)) in *.
  set (xe := x (pix Ny (next Nx i) j)) in *. set (xw := x (pix Ny (prev Nx i) j)) in *.
  set (xn := x (pix Ny i (next Ny j))) in *. set (xs := x (pix Ny i (prev Ny j))) in *.
  assert (Hdd: (0 < d * d)%R) by nra.
  set (g := (omega ^ 2 * (MU_0 * L0))%R) in *.
  assert (E: (RtoC (g * (d * d)) * xp)%C = (e2 * (xp - xe) + e1 * (xp - xw) + e4 * (xp - xn) + e3 * (xp - xs))%C).
  { rewrite RtoC_mult. 
    transitivity (RtoC (d * d) * ((e2 * (xe - xp) - e1 * (xp - xw) + (e4 * (xn - xp) - e3 * (xp - xs))) / RtoC (d * d) + RtoC g * xp)
       + (e2 * (xp - xe) + e1 * (xp - xw) + e4 * (xp - xn) + e3 * (xp - xs)))%C.
    - field. apply RtoC_neq0; lra.
    - rewrite H. ring. }
  apply (f_equal Cmod) in E. rewrite Cmod_mult, Cmod_R in E.
  assert (T := Cmod_triangle4 (e2 * (xp - xe))%C (e1 * (xp - xw))%C (e4 * (xp - xn))%C (e3 * (xp - xs))%C).
  rewrite !Cmod_mult in T.
  assert (Hsub: forall y, (Cmod y <= Cmod xp)%R -> (Cmod (xp - y)%C <= 2 * Cmod xp)%R).
  { intros y Hy. unfold Cminus. eapply Rle_trans; [apply Cmod_triangle|]. rewrite Cmod_opp. lra. }
  assert (Hp0: (0 <= Cmod xp)%R) by apply Cmod_ge_0.
  assert (Hterm: forall ee y, (Cmod ee <= b)%R -> (Cmod y <= Cmod xp)%R -> (Cmod ee * Cmod (xp - y)%C <= b * (2 * Cmod xp))%R).
  { intros ee y H1 H2. apply Rmult_le_compat; try apply Cmod_ge_0; auto. }
  assert (H1 := Hterm e2 xe Hx2 Hb1). assert (H2 := Hterm e1 xw Hx1 Hb2).
  assert (H3 := Hterm e4 xn Hy2 Hb3). assert (H4 := Hterm e3 xs Hy1 Hb4).
  apply Cmod_eq_0. rewrite Rabs_pos_eq in E by nra. nra.
Qed.

(** ** concrete simulations *)

(** exact environment *)
Definition ex_env : env := mkEnv false (fun _ n A b => exact_solver n A b) (fun _ _ _ _ => 0%R)
  (fun _ _ _ _ => Ok vzero) (fun _ E => (E, E)).
Lemma ex_env_exact : solver_exact ex_env.
Proof. intros sv n A b HA. apply exact_solver_correct; assumption. Qed.

(** angular frequency with omega^2 eps0 mu0 = 16 (L0 = 1, dl = 1) *)
Definition ex_omega : R := (4 / sqrt (EPSILON_0 * MU_0))%R.
Lemma ex_omega_pos : (0 < ex_omega)%R.
Proof.
  unfold ex_omega. apply Rdiv_lt_0_compat; [lra|]. apply sqrt_lt_R0.
  apply Rmult_lt_0_compat; [apply EPSILON_0_pos|apply MU_0_pos].
Qed.
Lemma ex_omega_sq : (ex_omega ^ 2 * (EPSILON_0 * MU_0) = 16)%R.
Proof.
  assert (H: (0 < EPSILON_0 * MU_0)%R) by (apply Rmult_lt_0_compat; [apply EPSILON_0_pos|apply MU_0_pos]).
  unfold ex_omega. rewrite <- (sqrt_sqrt (EPSILON_0 * MU_0)) at 2 by lra.
  assert (0 < sqrt (EPSILON_0 * MU_0))%R by (apply sqrt_lt_R0; assumption). field. lra.
Qed.

(** a 3 x 2 permittivity with three different values *)
Definition ex_eps : nd R := mkNd 3 2 (fun k => match k with 0 => 1 | 1 => 2 | 4 => 5 | _ => 1 end)%R.
Definition ex_sim_res (p : string) : res sim := Simulation ex_omega ex_eps 1 (Some [0; 0]%Z) p 1.
Lemma ex_check p : (p = "Ez" \/ p = "Hz")%string -> check_inputs 1 ex_omega (Some [0; 0]%Z) p = true.
Proof.
  intro Hp. unfold check_inputs. destruct (Rlt_dec 0 1); [|lra].
  destruct (Rlt_dec 0 ex_omega) as [|H]; [|exfalso; apply H, ex_omega_pos].
  destruct Hp as [-> | ->]; reflexivity.
Qed.
Lemma ex_sim_ok p : (p = "Ez" \/ p = "Hz")%string -> exists s, ex_sim_res p = Ok s.
Proof. intro Hp. unfold ex_sim_res, Simulation. rewrite ex_check by assumption. eexists; reflexivity. Qed.
