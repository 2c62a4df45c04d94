(** C01-C12: grid operators, PML, system matrix, linear solve. *)
From Coq Require Import Reals Lra Lia List ZArith Arith Bool String.
From Coquelicot Require Import Coquelicot.
From Verif Require Import Base Linear MCore MSim Spec PCore PSim PEx.
Import ListNotations.

(** What the constructor establishes. *)
Lemma Simulation_fields omega eps dl np p L0 s :
  Simulation omega eps dl np p L0 = Ok s ->
  s_omega s = omega /\ s_L0 s = L0 /\ s_Nx s = nd_nx eps /\ s_Ny s = nd_ny eps /\ s_eps s = eps /\
  s_xrange s = (0, INR (nd_nx eps) * dl)%R /\ s_yrange s = (0, INR (nd_ny eps) * dl)%R /\
  s_dl s = dl /\ (0 < omega)%R /\ (0 < L0)%R /\
  (forall a b, np = Some [a; b] -> s_NPML s = (Z.to_nat a, Z.to_nat b)) /\
  (p = "Ez"%string -> s_pol s = PolEz) /\ (p = "Hz"%string -> s_pol s = PolHz) /\
  (forall c, s_fields s c = None).
Proof.
  unfold Simulation. destruct (check_inputs L0 omega np p) eqn:E; [|discriminate].
  intro H; injection H as <-. unfold check_inputs in E.
  destruct (Rlt_dec 0 L0); [|discriminate]. destruct (Rlt_dec 0 omega); [|discriminate].
  unfold set_eps; cbn [s_omega s_L0 s_Nx s_Ny s_eps s_xrange s_yrange s_dl s_NPML s_pol s_fields].
  repeat split; try assumption.
  - intros a b ->. reflexivity.
  - intros ->. reflexivity.
  - intros ->. reflexivity.
Qed.

Lemma dL_new Nx Ny dl : (0 < Nx)%nat -> (0 < Ny)%nat ->
  dL Nx Ny (0, INR Nx * dl)%R (0, INR Ny * dl)%R = (dl, dl).
Proof.
  intros H1 H2. unfold dL; cbn [fst snd].
  assert (INR Nx <> 0%R) by (apply not_0_INR; lia). assert (INR Ny <> 0%R) by (apply not_0_INR; lia).
  f_equal; field; assumption.
Qed.

(* ------------------------------------------------------------------ *)
(** * C01 *)
Theorem C01_derivatives_are_periodic_differences :
  forall omega eps dl p L0 s, (0 < dl)%R ->
  let Nx := nd_nx eps in let Ny := nd_ny eps in
  (2 <= Nx)%nat -> (2 <= Ny)%nat ->
  Simulation omega eps dl (Some [0; 0]%Z) p L0 = Ok s ->
  forall (v : nat -> C) i j, (i < Nx)%nat -> (j < Ny)%nat ->
    mv (Nx * Ny) (Dxf (s_derivs s)) v (pix Ny i j) = diff_xf dl Nx Ny v i j /\
    mv (Nx * Ny) (Dxb (s_derivs s)) v (pix Ny i j) = diff_xb dl Nx Ny v i j /\
    mv (Nx * Ny) (Dyf (s_derivs s)) v (pix Ny i j) = diff_yf dl Nx Ny v i j /\
    mv (Nx * Ny) (Dyb (s_derivs s)) v (pix Ny i j) = diff_yb dl Nx Ny v i j.
Proof.
  intros omega eps dl p L0 s Hdl Nx Ny HNx HNy HS v i j Hi Hj.
  destruct (consistent_A s (Simulation_consistent _ _ _ _ _ _ _ HS)) as [_ HD].
  apply Simulation_fields in HS. destruct HS as (E1 & E2 & E3 & E4 & E5 & E6 & E7 & E8 & _ & _ & E9 & _).
  specialize (E9 0%Z 0%Z eq_refl). rewrite HD, E3, E4, E6, E7, E9. fold Nx Ny. cbn [Z.to_nat].
  unfold make_derivs, Dxf, Dxb, Dyf, Dyb.
  rewrite !make_deriv_no_pml by (apply flat_lt; assumption).
  rewrite dL_new by lia. cbn [fst snd].
  rewrite Dxf_stencil, Dxb_stencil, Dyf_stencil, Dyb_stencil by (try assumption; lra). auto.
Qed.
Example C01_met : exists s, Simulation ex_omega ex_eps 1 (Some [0; 0]%Z) "Ez" 1 = Ok s /\
  (2 <= nd_nx ex_eps)%nat /\ (2 <= nd_ny ex_eps)%nat /\
  diff_xf 1 3 2 (fun k => RtoC (INR k)) 2 1 = RtoC (-4).
Proof.
  destruct (ex_sim_ok "Ez") as [s Hs]; [auto|]. exists s. repeat split; try exact Hs; simpl; try lia.
  unfold diff_xf, pix, next; simpl. apply C_ext; unfold Re, Im; simpl; field.
Qed.

(* ------------------------------------------------------------------ *)
(** * C02 *)
Theorem C02_summation_by_parts :
  forall omega eps dl p L0 s, (0 < dl)%R ->
  let Nx := nd_nx eps in let Ny := nd_ny eps in
  (2 <= Nx)%nat -> (2 <= Ny)%nat ->
  Simulation omega eps dl (Some [0; 0]%Z) p L0 = Ok s ->
  forall u v : nat -> C, let M := (Nx * Ny)%nat in
    csum M (fun k => (u k * mv M (Dxf (s_derivs s)) v k)%C)
      = (- csum M (fun k => (mv M (Dxb (s_derivs s)) u k * v k)%C))%C /\
    csum M (fun k => (u k * mv M (Dyf (s_derivs s)) v k)%C)
      = (- csum M (fun k => (mv M (Dyb (s_derivs s)) u k * v k)%C))%C.
Proof.
  intros omega eps dl p L0 s Hdl Nx Ny HNx HNy HS u v M.
  destruct (consistent_A s (Simulation_consistent _ _ _ _ _ _ _ HS)) as [_ HD].
  apply Simulation_fields in HS. destruct HS as (E1 & E2 & E3 & E4 & E5 & E6 & E7 & E8 & _ & _ & E9 & _).
  specialize (E9 0%Z 0%Z eq_refl). rewrite HD, E3, E4, E6, E7, E9. fold Nx Ny. cbn [Z.to_nat].
  unfold make_derivs, Dxf, Dxb, Dyf, Dyb.
  split.
  - rewrite (csum_ext M _ (fun k => (u k * mv M (createDws AxX Fwd dl dl Nx Ny) v k)%C)),
            (csum_ext M (fun k => (mv M _ u k * v k)%C) (fun k => (mv M (createDws AxX Bwd dl dl Nx Ny) u k * v k)%C)).
    + apply (sbp AxX dl dl Nx Ny u v HNx).
    + intros k Hk. unfold M. rewrite make_deriv_no_pml, dL_new by (assumption || lia). reflexivity.
    + intros k Hk. unfold M. rewrite make_deriv_no_pml, dL_new by (assumption || lia). reflexivity.
  - rewrite (csum_ext M _ (fun k => (u k * mv M (createDws AxY Fwd dl dl Nx Ny) v k)%C)),
            (csum_ext M (fun k => (mv M _ u k * v k)%C) (fun k => (mv M (createDws AxY Bwd dl dl Nx Ny) u k * v k)%C)).
    + apply (sbp AxY dl dl Nx Ny u v HNy).
    + intros k Hk. unfold M. rewrite make_deriv_no_pml, dL_new by (assumption || lia). reflexivity.
    + intros k Hk. unfold M. rewrite make_deriv_no_pml, dL_new by (assumption || lia). reflexivity.
Qed.
(** x and y operators commute on every simulation, with any PML and any history. *)
Theorem C02_x_and_y_derivatives_commute :
  forall e s, reachable e s -> forall v k, (k < s_M s)%nat ->
  let M := s_M s in let D := s_derivs s in
  mv M (Dxf D) (mv M (Dyf D) v) k = mv M (Dyf D) (mv M (Dxf D) v) k /\
  mv M (Dxf D) (mv M (Dyb D) v) k = mv M (Dyb D) (mv M (Dxf D) v) k /\
  mv M (Dxb D) (mv M (Dyf D) v) k = mv M (Dyf D) (mv M (Dxb D) v) k /\
  mv M (Dxb D) (mv M (Dyb D) v) k = mv M (Dyb D) (mv M (Dxb D) v) k.
Proof.
  intros e s HR v k Hk M D.
  destruct (consistent_A s (reachable_consistent e s HR)) as [_ HD]. unfold M, D, s_M in *. rewrite HD.
  unfold make_derivs, Dxf, Dxb, Dyf, Dyb.
  repeat split; apply xy_commute; assumption.
Qed.
Example C02_met : exists e s, reachable e s /\ (0 < s_M s)%nat.
Proof.
  destruct (ex_sim_ok "Ez") as [s Hs]; [auto|]. exists ex_env, s. split.
  - exists ex_omega, ex_eps, 1%R, (Some [0;0]%Z), "Ez"%string, 1%R, s, []. repeat split; try exact Hs; simpl; try lia; lra.
  - apply Simulation_fields in Hs as (_ & _ & E1 & E2 & _). unfold s_M. rewrite E1, E2; simpl; lia.
Qed.

(* ------------------------------------------------------------------ *)
(** * C03: false of the code.  Along a single-pixel direction the "derivative" is the
    identity (divided by the PML factor), for every such simulation. *)
Theorem C03_single_pixel_operator_is_identity :
  forall omega eps dl p L0 s, (0 < dl)%R -> (0 < nd_nx eps)%nat -> nd_ny eps = 1%nat ->
  Simulation omega eps dl (Some [0; 0]%Z) p L0 = Ok s ->
  forall v k, (k < nd_nx eps * 1)%nat ->
    mv (nd_nx eps * 1) (Dyf (s_derivs s)) v k = v k /\ mv (nd_nx eps * 1) (Dyb (s_derivs s)) v k = v k.
Proof.
  intros omega eps dl p L0 s Hdl Hx Hy HS v k Hk.
  destruct (consistent_A s (Simulation_consistent _ _ _ _ _ _ _ HS)) as [_ HD].
  apply Simulation_fields in HS. destruct HS as (E1 & E2 & E3 & E4 & E5 & E6 & E7 & E8 & _ & _ & E9 & _).
  specialize (E9 0%Z 0%Z eq_refl). rewrite HD, E3, E4, E6, E7, E9, Hy.
  unfold make_derivs, Dyf, Dyb. cbn [Z.to_nat].
  rewrite !make_deriv_no_pml by assumption. split; apply mv_Id; assumption.
Qed.
(** the property, stated on the operators of a simulation *)
Definition C03_property : Prop :=
  forall omega eps dl p L0 s, (0 < dl)%R -> (0 < nd_nx eps)%nat -> nd_ny eps = 1%nat ->
  Simulation omega eps dl (Some [0; 0]%Z) p L0 = Ok s ->
  forall v k, (k < nd_nx eps * 1)%nat -> mv (nd_nx eps * 1) (Dyf (s_derivs s)) v k = RtoC 0.
Theorem C03_zero_derivative_refuted : ~ C03_property.
Proof.
  intro H.
  assert (HS: exists s, Simulation ex_omega (mkNd 3 1 (fun _ => 1%R)) 1 (Some [0;0]%Z) "Ez" 1 = Ok s).
  { unfold Simulation. rewrite ex_check by auto. eexists; reflexivity. }
  destruct HS as [s HS].
  specialize (H ex_omega (mkNd 3 1 (fun _ => 1%R)) 1%R "Ez"%string 1%R s Rlt_0_1 (Nat.lt_0_succ 2) eq_refl HS (fun _ => RtoC 1) O (Nat.lt_0_succ 2)).
  rewrite (proj1 (C03_single_pixel_operator_is_identity ex_omega (mkNd 3 1 (fun _ => 1%R)) 1%R "Ez"%string 1%R s Rlt_0_1 (Nat.lt_0_succ 2) eq_refl HS
     (fun _ => RtoC 1) O (Nat.lt_0_succ 2))) in H.
  apply RtoC_inj in H. lra.
Qed.

(* ------------------------------------------------------------------ *)
(** * C04 *)
(** The step in force after any history is the original extent divided by the current
    number of pixels. *)
Lemma history_step e omega eps dl np p L0 s0 l :
  (0 < nd_nx eps)%nat -> (0 < nd_ny eps)%nat ->
  Simulation omega eps dl np p L0 = Ok s0 ->
  let s := run_ops e l s0 in
  s_xrange s = (0, INR (nd_nx eps) * dl)%R /\ s_yrange s = (0, INR (nd_ny eps) * dl)%R /\
  s_NPML s = s_NPML s0 /\ s_omega s = omega /\ s_L0 s = L0 /\ s_pol s = s_pol s0.
Proof.
  intros Hx Hy HS s. apply Simulation_fields in HS.
  destruct HS as (E1 & E2 & E3 & E4 & E5 & E6 & E7 & E8 & _).
  destruct (run_ops_params e l s0) as (P1 & P2 & P3 & P4 & P5 & P6 & P7). unfold s.
  rewrite P1, P2, P3, P4, P6, P7, E1, E2, E6, E7. auto 10.
Qed.
Theorem C04_step_after_any_history :
  forall e omega eps dl p L0 s0 l, (0 < dl)%R -> (0 < nd_nx eps)%nat -> (0 < nd_ny eps)%nat ->
  Simulation omega eps dl (Some [0; 0]%Z) p L0 = Ok s0 ->
  let s := run_ops e l s0 in
  let Nx := s_Nx s in let Ny := s_Ny s in
  (2 <= Nx)%nat -> (2 <= Ny)%nat ->
  forall v i j, (i < Nx)%nat -> (j < Ny)%nat ->
    mv (Nx * Ny) (Dxf (s_derivs s)) v (pix Ny i j) = diff_xf (INR (nd_nx eps) * dl / INR Nx) Nx Ny v i j /\
    mv (Nx * Ny) (Dxb (s_derivs s)) v (pix Ny i j) = diff_xb (INR (nd_nx eps) * dl / INR Nx) Nx Ny v i j /\
    mv (Nx * Ny) (Dyf (s_derivs s)) v (pix Ny i j) = diff_yf (INR (nd_ny eps) * dl / INR Ny) Nx Ny v i j /\
    mv (Nx * Ny) (Dyb (s_derivs s)) v (pix Ny i j) = diff_yb (INR (nd_ny eps) * dl / INR Ny) Nx Ny v i j.
Proof.
  intros e omega eps dl p L0 s0 l Hdl Hx Hy HS s Nx Ny HNx HNy v i j Hi Hj.
  assert (HC: consistent s) by (apply run_ops_consistent; eapply Simulation_consistent; eassumption).
  destruct (consistent_A s HC) as [_ HD].
  destruct (history_step e _ _ _ _ _ _ _ l Hx Hy HS) as (E1 & E2 & E3 & _). fold s in E1, E2, E3.
  assert (E9: s_NPML s0 = (0, 0)%nat).
  { apply Simulation_fields in HS. destruct HS as (_ & _ & _ & _ & _ & _ & _ & _ & _ & _ & E9 & _).
    apply (E9 0%Z 0%Z eq_refl). }
  rewrite HD, E1, E2, E3, E9. fold Nx Ny.
  unfold make_derivs, Dxf, Dxb, Dyf, Dyb.
  rewrite !make_deriv_no_pml by (apply flat_lt; assumption).
  unfold dL; cbn [fst snd]. rewrite !Rminus_0_r.
  assert (INR Nx <> 0%R) by (apply not_0_INR; lia). assert (INR Ny <> 0%R) by (apply not_0_INR; lia).
  assert (0 < INR (nd_nx eps) * dl)%R by (apply Rmult_lt_0_compat; [apply lt_0_INR; lia|assumption]).
  assert (0 < INR (nd_ny eps) * dl)%R by (apply Rmult_lt_0_compat; [apply lt_0_INR; lia|assumption]).
  rewrite Dxf_stencil, Dxb_stencil, Dyf_stencil, Dyb_stencil
    by (try assumption; apply Rgt_not_eq, Rdiv_lt_0_compat; try assumption; apply lt_0_INR; lia). auto.
Qed.
(** In particular the step is dl after every history that ends with an array of the
    original shape. *)
Theorem C04_step_is_dl_partial :
  forall e omega eps dl p L0 s0 l, (0 < dl)%R -> (2 <= nd_nx eps)%nat -> (2 <= nd_ny eps)%nat ->
  Simulation omega eps dl (Some [0; 0]%Z) p L0 = Ok s0 ->
  let s := run_ops e l s0 in
  let Nx := s_Nx s in let Ny := s_Ny s in
  Nx = nd_nx eps -> Ny = nd_ny eps ->
  forall v i j, (i < Nx)%nat -> (j < Ny)%nat ->
    mv (Nx * Ny) (Dxf (s_derivs s)) v (pix Ny i j) = diff_xf dl Nx Ny v i j /\
    mv (Nx * Ny) (Dxb (s_derivs s)) v (pix Ny i j) = diff_xb dl Nx Ny v i j /\
    mv (Nx * Ny) (Dyf (s_derivs s)) v (pix Ny i j) = diff_yf dl Nx Ny v i j /\
    mv (Nx * Ny) (Dyb (s_derivs s)) v (pix Ny i j) = diff_yb dl Nx Ny v i j.
Proof.
  intros e omega eps dl p L0 s0 l Hdl Hx Hy HS s Nx Ny EX EY v i j Hi Hj.
  assert (H := C04_step_after_any_history e omega eps dl p L0 s0 l Hdl ltac:(lia) ltac:(lia) HS).
  cbv zeta in H. fold s in H. fold Nx Ny in H. specialize (H ltac:(lia) ltac:(lia) v i j Hi Hj).
  rewrite EX, EY in H. rewrite EX, EY.
  assert (INR (nd_nx eps) <> 0%R) by (apply not_0_INR; lia).
  assert (INR (nd_ny eps) <> 0%R) by (apply not_0_INR; lia).
  replace (INR (nd_nx eps) * dl / INR (nd_nx eps))%R with dl in H by (field; assumption).
  replace (INR (nd_ny eps) * dl / INR (nd_ny eps))%R with dl in H by (field; assumption).
  exact H.
Qed.
(** Assigning an array of another shape changes the step: the property is false. *)
Theorem C04_shape_change_refuted :
  exists e omega eps dl p L0 s0 a v i j,
    (0 < dl)%R /\ Simulation omega eps dl (Some [0; 0]%Z) p L0 = Ok s0 /\
    let s := run_ops e [SetEps a] s0 in
    (i < s_Nx s)%nat /\ (j < s_Ny s)%nat /\
    mv (s_Nx s * s_Ny s) (Dxf (s_derivs s)) v (pix (s_Ny s) i j) <> diff_xf dl (s_Nx s) (s_Ny s) v i j.
Proof.
  destruct (ex_sim_ok "Ez") as [s0 Hs]; [auto|].
  exists ex_env, ex_omega, ex_eps, 1%R, "Ez"%string, 1%R, s0, (mkNd 2 2 (fun _ => 1%R)),
    (fun k => RtoC (INR k)), O, O.
  split; [lra|]. split; [exact Hs|]. cbv zeta.
  assert (H := C04_step_after_any_history ex_env ex_omega ex_eps 1 "Ez" 1 s0 [SetEps (mkNd 2 2 (fun _ => 1%R))]
     Rlt_0_1 (Nat.lt_0_succ 2) (Nat.lt_0_succ 1) Hs). cbv zeta in H.
  change (s_Nx (run_ops ex_env [SetEps (mkNd 2 2 (fun _ => 1%R))] s0)) with 2%nat in *.
  change (s_Ny (run_ops ex_env [SetEps (mkNd 2 2 (fun _ => 1%R))] s0)) with 2%nat in *.
  split; [lia|]. split; [lia|].
  rewrite (proj1 (H ltac:(lia) ltac:(lia) (fun k => RtoC (INR k)) O O ltac:(lia) ltac:(lia))).
  unfold diff_xf, pix, next; simpl. intro E. apply (f_equal Re) in E.
  unfold Cdiv in E. rewrite <- !RtoC_inv in E by lra.
  autorewrite with reim in E. simpl in E. lra.
Qed.

(* ------------------------------------------------------------------ *)
(** * C05 *)
Lemma pml_op_x s omega L0 Nx Ny NPML xr yr v i j :
  (2 <= Nx)%nat -> (i < Nx)%nat -> (j < Ny)%nat -> fst (dL Nx Ny xr yr) <> 0%R ->
  mv (Nx * Ny) (make_deriv AxX s omega L0 Nx Ny NPML xr yr) v (pix Ny i j) =
  (/ create_sfactor xr L0 s omega Nx (fst NPML) i *
   match s with Fwd => diff_xf (fst (dL Nx Ny xr yr)) Nx Ny v i j
              | Bwd => diff_xb (fst (dL Nx Ny xr yr)) Nx Ny v i j end)%C.
Proof.
  intros HN Hi Hj Hd. rewrite make_deriv_mv by (apply flat_lt; assumption). unfold S_vec.
  replace (pix Ny i j / Ny)%nat with i by (unfold pix; rewrite flat_div; auto). destruct s; [rewrite Dxf_stencil|rewrite Dxb_stencil]; auto.
Qed.
Lemma pml_op_y s omega L0 Nx Ny NPML xr yr v i j :
  (2 <= Ny)%nat -> (i < Nx)%nat -> (j < Ny)%nat -> snd (dL Nx Ny xr yr) <> 0%R ->
  mv (Nx * Ny) (make_deriv AxY s omega L0 Nx Ny NPML xr yr) v (pix Ny i j) =
  (/ create_sfactor yr L0 s omega Ny (snd NPML) j *
   match s with Fwd => diff_yf (snd (dL Nx Ny xr yr)) Nx Ny v i j
              | Bwd => diff_yb (snd (dL Nx Ny xr yr)) Nx Ny v i j end)%C.
Proof.
  intros HN Hi Hj Hd. rewrite make_deriv_mv by (apply flat_lt; assumption). unfold S_vec.
  replace (pix Ny i j mod Ny)%nat with j by (unfold pix; rewrite flat_mod; auto). destruct s; [rewrite Dyf_stencil|rewrite Dyb_stencil]; auto.
Qed.

(** the four operators of [s] are the periodic differences with step dl divided by the
    given stretch factors *)
Definition stretched_by (s : sim) (dl : R) (Nx Ny : nat) (sxf sxb syf syb : nat -> C) : Prop :=
  forall v i j, (i < Nx)%nat -> (j < Ny)%nat ->
    mv (Nx * Ny) (Dxf (s_derivs s)) v (pix Ny i j) = (/ sxf i * diff_xf dl Nx Ny v i j)%C /\
    mv (Nx * Ny) (Dxb (s_derivs s)) v (pix Ny i j) = (/ sxb i * diff_xb dl Nx Ny v i j)%C /\
    mv (Nx * Ny) (Dyf (s_derivs s)) v (pix Ny i j) = (/ syf j * diff_yf dl Nx Ny v i j)%C /\
    mv (Nx * Ny) (Dyb (s_derivs s)) v (pix Ny i j) = (/ syb j * diff_yb dl Nx Ny v i j)%C.
(** a stretch factor profile on an axis of N pixels with n PML pixels *)
Definition absorbing_profile (N n : nat) (sf : nat -> C) : Prop :=
  forall i, (i < N)%nat ->
    Re (sf i) = 1%R /\ (Im (sf i) <= 0)%R /\
    ((n < i)%nat -> (i + n <= N)%nat -> sf i = RtoC 1) /\
    (n = 0%nat -> sf i = RtoC 1).
Lemma pml_operators :
  forall omega eps dl nx ny p L0 s, (0 < dl)%R ->
  let Nx := nd_nx eps in let Ny := nd_ny eps in
  (2 <= Nx)%nat -> (2 <= Ny)%nat ->
  Simulation omega eps dl (Some [Z.of_nat nx; Z.of_nat ny]) p L0 = Ok s ->
  let xr := (0, INR Nx * dl)%R in let yr := (0, INR Ny * dl)%R in
  (0 < omega)%R /\ (0 < L0)%R /\ (fst xr < snd xr)%R /\ (fst yr < snd yr)%R /\
  stretched_by s dl Nx Ny
    (create_sfactor xr L0 Fwd omega Nx nx) (create_sfactor xr L0 Bwd omega Nx nx)
    (create_sfactor yr L0 Fwd omega Ny ny) (create_sfactor yr L0 Bwd omega Ny ny).
Proof.
  intros omega eps dl nx ny p L0 s Hdl Nx Ny HNx HNy HS xr yr.
  destruct (consistent_A s (Simulation_consistent _ _ _ _ _ _ _ HS)) as [_ HD].
  apply Simulation_fields in HS. destruct HS as (E1 & E2 & E3 & E4 & E5 & E6 & E7 & E8 & Ho & HL & E9 & _).
  specialize (E9 _ _ eq_refl). rewrite !Nat2Z.id in E9.
  assert (Hx: (fst xr < snd xr)%R) by (simpl; apply Rmult_lt_0_compat; [apply lt_0_INR; lia|assumption]).
  assert (Hy: (fst yr < snd yr)%R) by (simpl; apply Rmult_lt_0_compat; [apply lt_0_INR; lia|assumption]).
  repeat (split; [assumption|]).
  intros v i j Hi Hj. rewrite HD, E1, E2, E3, E4, E6, E7, E9. fold Nx Ny xr yr.
  unfold make_derivs, Dxf, Dxb, Dyf, Dyb.
  assert (HdL: dL Nx Ny xr yr = (dl, dl)) by (apply dL_new; lia).
  rewrite !pml_op_x, !pml_op_y by (try assumption; rewrite HdL; simpl; lra).
  rewrite HdL; cbn [fst snd]. auto.
Qed.
Theorem C05_pml_absorbs_near_border_only :
  forall omega eps dl nx ny p L0 s, (0 < dl)%R ->
  let Nx := nd_nx eps in let Ny := nd_ny eps in
  (2 <= Nx)%nat -> (2 <= Ny)%nat ->
  Simulation omega eps dl (Some [Z.of_nat nx; Z.of_nat ny]) p L0 = Ok s ->
  exists sxf sxb syf syb : nat -> C,
    absorbing_profile Nx nx sxf /\ absorbing_profile Nx nx sxb /\
    absorbing_profile Ny ny syf /\ absorbing_profile Ny ny syb /\
    stretched_by s dl Nx Ny sxf sxb syf syb.
Proof.
  intros omega eps dl nx ny p L0 s Hdl Nx Ny HNx HNy HS.
  destruct (pml_operators _ _ _ _ _ _ _ _ Hdl HNx HNy HS) as (Ho & HL & Hx & Hy & HO).
  assert (HP: forall range sd N n, (fst range < snd range)%R -> (2 <= N)%nat ->
              absorbing_profile N n (create_sfactor range L0 sd omega N n)).
  { intros range sd N n Hr HN i Hi.
    destruct (sfactor_shape range L0 sd omega N n i) as [A B]; try assumption; try lia.
    repeat split; try assumption.
    - intros; apply sfactor_interior; assumption.
    - intros ->; apply sfactor_no_pml. }
  do 4 eexists. split; [|split; [|split; [|split; [|exact HO]]]]; apply HP; assumption.
Qed.
(** a PML really is present: the factor at the border is not 1 *)
Example C05_met :
  exists s, Simulation ex_omega (mkNd 5 3 (fun _ => 2%R)) 1 (Some [1; 0]%Z) "Hz" 1 = Ok s /\
  (Im (create_sfactor (0, 5)%R 1 Fwd ex_omega 5 1 O) < 0)%R.
Proof.
  eexists; split.
  - unfold Simulation. unfold check_inputs. destruct (Rlt_dec 0 1); [|lra].
    destruct (Rlt_dec 0 ex_omega) as [|H]; [|exfalso; apply H, ex_omega_pos]. reflexivity.
  - unfold create_sfactor. cbn [Nat.ltb Nat.leb fst snd].
    rewrite Sfac_eq by (apply ex_omega_pos || lra). cbn [Im snd].
    assert (He := EPSILON_0_pos). assert (Ho := ex_omega_pos). assert (Hn := ETA_0_pos).
    assert (0 < sig_w ((5 - 0) / INR 5 * (INR 1 - INR 0 + 0.5)) (INR 1 * ((5 - 0) / INR 5)))%R.
    { rewrite sig_w_even. replace (INR 5) with 5%R by (simpl; ring). simpl (INR 1). simpl (INR 0).
      apply Rmult_lt_0_compat; [apply Rdiv_lt_0_compat; [lra|nra]|]. apply pow_lt. lra. }
    assert (0 < sig_w ((5 - 0) / INR 5 * (INR 1 - INR 0 + 0.5)) (INR 1 * ((5 - 0) / INR 5)) / (ex_omega * EPSILON_0 * 1))%R.
    { apply Rdiv_lt_0_compat; [assumption|]. nra. }
    lra.
Qed.

(* ------------------------------------------------------------------ *)
(** * C06 *)
(** depth-based form of the profile *)
Lemma sfactor_low range L0 s omega Nw Np i : (1 <= Np)%nat -> (i <= Np)%nat ->
  create_sfactor range L0 s omega Nw Np i =
  Sfac ((snd range - fst range) / INR Nw * (INR Np - INR i + match s with Fwd => 0.5 | Bwd => 1 end))
       (INR Np * ((snd range - fst range) / INR Nw)) omega L0.
Proof.
  intros H1 H2. unfold create_sfactor. destruct (Nat.ltb_spec Np 1); [lia|].
  destruct (Nat.leb_spec i Np); [|lia]. destruct s; reflexivity.
Qed.
Lemma sfactor_high range L0 s omega Nw Np i : (1 <= Np)%nat -> (Np < i)%nat -> (Nw < i + Np)%nat ->
  create_sfactor range L0 s omega Nw Np i =
  Sfac ((snd range - fst range) / INR Nw * (INR i - (INR Nw - INR Np) - match s with Fwd => 0.5 | Bwd => 1 end))
       (INR Np * ((snd range - fst range) / INR Nw)) omega L0.
Proof.
  intros H1 H2 H3. unfold create_sfactor. destruct (Nat.ltb_spec Np 1); [lia|].
  destruct (Nat.leb_spec i Np); [lia|].
  destruct (Z.ltb_spec (Z.of_nat Nw - Z.of_nat Np) (Z.of_nat i)); [|lia]. destruct s; reflexivity.
Qed.
Lemma pow4_le a b : (0 <= a)%R -> (a <= b)%R -> (a ^ 4 <= b ^ 4)%R.
Proof. intros. apply pow_incr; split; assumption. Qed.
Lemma pow4_lt a b : (0 <= a)%R -> (a < b)%R -> (a ^ 4 < b ^ 4)%R.
Proof.
  intros Ha Hb. replace (a ^ 4)%R with ((a*a)*(a*a))%R by ring. replace (b ^ 4)%R with ((b*b)*(b*b))%R by ring.
  assert (a*a < b*b)%R by nra. nra.
Qed.
Lemma Sfac_depth_lt l l' dw omega L0 : (0 < omega)%R -> (0 < L0)%R -> (0 < dw)%R ->
  (0 <= l)%R -> (l < l')%R -> (Im (Sfac l' dw omega L0) < Im (Sfac l dw omega L0))%R.
Proof.
  intros Ho HL Hd Hl Hll. rewrite !Sfac_eq by assumption. cbn [Im snd].
  assert (He := EPSILON_0_pos). assert (Hn := ETA_0_pos).
  rewrite !sig_w_even.
  assert (Hq: ((l / dw) ^ 4 < (l' / dw) ^ 4)%R).
  { apply pow4_lt; [apply Rmult_le_pos; [assumption|left; apply Rinv_0_lt_compat; assumption]|].
    apply Rmult_lt_compat_r; [apply Rinv_0_lt_compat; assumption|assumption]. }
  assert (Hc: (0 < 60 / (2 * ETA_0 * dw))%R) by (apply Rdiv_lt_0_compat; nra).
  assert (Hk: (0 < / (omega * EPSILON_0 * L0))%R) by (apply Rinv_0_lt_compat; apply Rmult_lt_0_compat; [apply Rmult_lt_0_compat|]; assumption).
  apply Ropp_lt_contravar. unfold Rdiv at 1 4. apply Rmult_lt_compat_r; [assumption|].
  apply Rmult_lt_compat_l; assumption.
Qed.

Lemma sfactor_graded :
  forall range L0 sd omega Nw Np,
  (0 < omega)%R -> (0 < L0)%R -> (fst range < snd range)%R -> (1 <= Np)%nat -> (2 * Np < Nw)%nat ->
  let sf := create_sfactor range L0 sd omega Nw Np in
  (forall i i', (i < i')%nat -> (i' <= Np)%nat -> (Im (sf i) < Im (sf i'))%R) /\
  (forall i i', (Nw < i + Np)%nat -> (i < i')%nat -> (i' < Nw)%nat -> (Im (sf i') < Im (sf i))%R).
Proof.
  intros range L0 sd omega Nw Np Ho HL Hr H1 H2 sf.
  assert (Hhw: (0 < (snd range - fst range) / INR Nw)%R) by (apply Rdiv_lt_0_compat; [lra|apply lt_0_INR; lia]).
  assert (Hdw: (0 < INR Np * ((snd range - fst range) / INR Nw))%R) by (apply Rmult_lt_0_compat; [apply lt_0_INR; lia|assumption]).
  unfold sf. split; intros i i' Ha Hb.
  - rewrite !sfactor_low by lia. apply Sfac_depth_lt; try assumption.
    + apply Rmult_le_pos; [lra|]. assert (INR i' <= INR Np)%R by (apply le_INR; lia). destruct sd; lra.
    + apply Rmult_lt_compat_l; [assumption|]. assert (INR i < INR i')%R by (apply lt_INR; lia). lra.
  - intro Hc. rewrite !sfactor_high by lia. apply Sfac_depth_lt; try assumption.
    + apply Rmult_le_pos; [lra|].
      assert (INR (Nw + 1) <= INR (i + Np))%R by (apply le_INR; lia). rewrite !plus_INR in H. simpl in H. destruct sd; lra.
    + apply Rmult_lt_compat_l; [assumption|]. assert (INR i < INR i')%R by (apply lt_INR; lia). lra.
Qed.
(** absorption grows strictly towards the border inside each layer *)
Definition graded (N n : nat) (sf : nat -> C) : Prop :=
  (forall i i', (i < i')%nat -> (i' <= n)%nat -> (Im (sf i) < Im (sf i'))%R) /\
  (forall i i', (N < i + n)%nat -> (i < i')%nat -> (i' < N)%nat -> (Im (sf i') < Im (sf i))%R).
(** Monotone part of C06, at the level of the simulation's operators (layers that do not
    overlap).  Missing: the mirror symmetry, which is false of the code (below). *)
Theorem C06_absorption_grows_towards_border_partial :
  forall omega eps dl nx ny p L0 s, (0 < dl)%R ->
  let Nx := nd_nx eps in let Ny := nd_ny eps in
  (2 <= Nx)%nat -> (2 <= Ny)%nat ->
  (1 <= nx)%nat -> (2 * nx < Nx)%nat -> (1 <= ny)%nat -> (2 * ny < Ny)%nat ->
  Simulation omega eps dl (Some [Z.of_nat nx; Z.of_nat ny]) p L0 = Ok s ->
  exists sxf sxb syf syb : nat -> C,
    graded Nx nx sxf /\ graded Nx nx sxb /\ graded Ny ny syf /\ graded Ny ny syb /\
    stretched_by s dl Nx Ny sxf sxb syf syb.
Proof.
  intros omega eps dl nx ny p L0 s Hdl Nx Ny HNx HNy A1 A2 A3 A4 HS.
  destruct (pml_operators _ _ _ _ _ _ _ _ Hdl HNx HNy HS) as (Ho & HL & Hx & Hy & HO).
  do 4 eexists. split; [|split; [|split; [|split; [|exact HO]]]];
    unfold graded; apply sfactor_graded; assumption.
Qed.
(** The two layers are the same profile, but reflected about the wrong point: pixel i of
    the low end has the factor of pixel Nw+1-i (forward) or Nw+2-i (backward), i.e. the
    mirror pixel Nw-1-i shifted by 2 or 3 pixels. *)
Theorem C06_shifted_mirror :
  forall range L0 sd omega Nw Np i,
  (1 <= Np)%nat -> (2 * Np < Nw)%nat -> (i <= Np)%nat ->
  let sh := match sd with Fwd => 1%nat | Bwd => 2%nat end in
  create_sfactor range L0 sd omega Nw Np i = create_sfactor range L0 sd omega Nw Np (Nw + sh - i)%nat.
Proof.
  intros range L0 sd omega Nw Np i H1 H2 H3 sh.
  rewrite sfactor_low, sfactor_high by (try assumption; unfold sh; destruct sd; lia).
  f_equal. f_equal. unfold sh. rewrite minus_INR by (destruct sd; lia). rewrite plus_INR.
  destruct sd; simpl; lra.
Qed.
Lemma sfactor_ends_differ :
  forall range L0 sd omega Nw Np,
  (0 < omega)%R -> (0 < L0)%R -> (fst range < snd range)%R -> (2 <= Np)%nat -> (2 * Np < Nw)%nat ->
  let sf := create_sfactor range L0 sd omega Nw Np in
  (Im (sf O) < Im (sf (Nw - 1)%nat))%R.
Proof.
  intros range L0 sd omega Nw Np Ho HL Hr H1 H2 sf.
  assert (Hhw: (0 < (snd range - fst range) / INR Nw)%R) by (apply Rdiv_lt_0_compat; [lra|apply lt_0_INR; lia]).
  assert (Hdw: (0 < INR Np * ((snd range - fst range) / INR Nw))%R) by (apply Rmult_lt_0_compat; [apply lt_0_INR; lia|assumption]).
  assert (HNp: (2 <= INR Np)%R) by (apply (le_INR 2); assumption).
  unfold sf. rewrite sfactor_low, sfactor_high by lia. rewrite minus_INR by lia. simpl (INR 1). simpl (INR 0).
  apply Sfac_depth_lt; try assumption.
  - apply Rmult_le_pos; [lra|]. destruct sd; lra.
  - apply Rmult_lt_compat_l; [assumption|]. destruct sd; lra.
Qed.
(** The property (mirror images) is false for every simulation with at least two PML pixels:
    the first and the last pixel have different factors. *)
Theorem C06_mirror_refuted :
  forall omega eps dl nx ny p L0 s, (0 < dl)%R ->
  let Nx := nd_nx eps in let Ny := nd_ny eps in
  (2 <= nx)%nat -> (2 * nx < Nx)%nat -> (2 <= ny)%nat -> (2 * ny < Ny)%nat ->
  Simulation omega eps dl (Some [Z.of_nat nx; Z.of_nat ny]) p L0 = Ok s ->
  exists sxf sxb syf syb : nat -> C,
    sxf O <> sxf (Nx - 1)%nat /\ sxb O <> sxb (Nx - 1)%nat /\
    syf O <> syf (Ny - 1)%nat /\ syb O <> syb (Ny - 1)%nat /\
    stretched_by s dl Nx Ny sxf sxb syf syb.
Proof.
  intros omega eps dl nx ny p L0 s Hdl Nx Ny A1 A2 A3 A4 HS.
  destruct (pml_operators omega eps dl nx ny p L0 s Hdl ltac:(fold Nx; lia) ltac:(fold Ny; lia) HS) as (Ho & HL & Hx & Hy & HO).
  do 4 eexists. split; [|split; [|split; [|split; [|exact HO]]]];
    intro E; apply (f_equal Im) in E; revert E; apply Rlt_not_eq; apply sfactor_ends_differ; assumption.
Qed.
Example C06_met : (1 <= 10)%nat /\ (2 * 10 < 100)%nat /\ (0 < ex_omega)%R.
Proof. repeat split; try lia. apply ex_omega_pos. Qed.
