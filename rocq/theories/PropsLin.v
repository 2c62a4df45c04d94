(** C10-C12: linearity in the source, Helmholtz stencil, nonlinear permittivity. *)
From Coq Require Import Reals Lra Lia List ZArith Arith Bool String.
From Coquelicot Require Import Coquelicot.
From Verif Require Import Base Linear MCore MSim Spec PCore PSim PEx PropsCore PropsSolve.
Import ListNotations.

(* ------------------------------------------------------------------ *)
(** * C10 *)
Lemma derived_linear s eps av X Y Z a b : 
  (forall k, (k < s_M s)%nat -> Z k = (a * X k + b * Y k)%C) ->
  let DX := derived_fields s eps av X in let DY := derived_fields s eps av Y in
  let DZ := derived_fields s eps av Z in
  forall k, fst DZ k = (a * fst DX k + b * fst DY k)%C /\ snd DZ k = (a * snd DX k + b * snd DY k)%C.
Proof.
  intros HZ DX DY DZ k. unfold DX, DY, DZ, derived_fields.
  assert (HM: forall A k, mv (s_M s) A Z k = (a * mv (s_M s) A X k + b * mv (s_M s) A Y k)%C).
  { intros A j. rewrite (mv_ext_v _ A Z (vplus (vscal a X) (vscal b Y))) by exact HZ.
    rewrite mv_vplus, !mv_vscal. reflexivity. }
  destruct (s_pol s); cbn [fst snd]; unfold vscal; rewrite !HM; split; ring.
Qed.
Theorem C10_linear_in_source :
  forall e s, reachable e s -> solver_exact e -> nonsingular (s_M s) (s_A s) ->
  forall av (a b : C) src1 src2 src3 s1 s2 s3 x1 y1 z1 x2 y2 z2 x3 y3 z3,
  (forall k, (k < s_M s)%nat -> nd_buf src3 k = (a * nd_buf src1 k + b * nd_buf src2 k)%C) ->
  solve_fields e false av (upd_src src1 s) = (s1, Ok (x1, y1, z1)) ->
  solve_fields e false av (upd_src src2 s) = (s2, Ok (x2, y2, z2)) ->
  solve_fields e false av (upd_src src3 s) = (s3, Ok (x3, y3, z3)) ->
  forall k, (k < s_M s)%nat ->
    x3 k = (a * x1 k + b * x2 k)%C /\ y3 k = (a * y1 k + b * y2 k)%C /\ z3 k = (a * z1 k + b * z2 k)%C.
Proof.
  intros e s HR He HA av a b src1 src2 src3 s1 s2 s3 x1 y1 z1 x2 y2 z2 x3 y3 z3 Hs H1 H2 H3 k Hk.
  assert (S1 := solve_fields_solves e false av (upd_src src1 s) _ _ _ _ He HA H1).
  assert (S2 := solve_fields_solves e false av (upd_src src2 s) _ _ _ _ He HA H2).
  assert (S3 := solve_fields_solves e false av (upd_src src3 s) _ _ _ _ He HA H3).
  apply solve_fields_ok in H1 as (_ & _ & D1 & _). apply solve_fields_ok in H2 as (_ & _ & D2 & _).
  apply solve_fields_ok in H3 as (_ & _ & D3 & _).
  change (s_M (upd_src _ s)) with (s_M s) in S1, S2, S3. cbn [used_matrix upd_src s_A] in S1, S2, S3.
  assert (HZ: forall k, (k < s_M s)%nat -> z3 k = (a * z1 k + b * z2 k)%C).
  { apply (solves_unique (s_M s) (s_A s) z3 (vplus (vscal a z1) (vscal b z2)) (rhs (upd_src src3 s)) HA S3).
    intros r Hr. change (csum (s_M s) _) with (mv (s_M s) (s_A s) (vplus (vscal a z1) (vscal b z2)) r).
    rewrite mv_vplus, !mv_vscal. change (mv (s_M s) (s_A s) z1 r) with (csum (s_M s) (fun c => (s_A s r c * z1 c)%C)).
    change (mv (s_M s) (s_A s) z2 r) with (csum (s_M s) (fun c => (s_A s r c * z2 c)%C)).
    rewrite (S1 r Hr), (S2 r Hr). unfold rhs; cbn [upd_src s_src s_omega]. rewrite Hs by assumption. ring. }
  destruct (derived_linear s (s_epsC s) av z1 z2 z3 a b HZ k) as [L1 L2].
  change (derived_fields s (s_epsC s) av z1) with (derived_fields (upd_src src1 s) (used_eps false (upd_src src1 s)) av z1) in L1, L2.
  change (derived_fields s (s_epsC s) av z2) with (derived_fields (upd_src src2 s) (used_eps false (upd_src src2 s)) av z2) in L1, L2.
  change (derived_fields s (s_epsC s) av z3) with (derived_fields (upd_src src3 s) (used_eps false (upd_src src3 s)) av z3) in L1, L2.
  rewrite <- D1, <- D2, <- D3 in L1, L2. cbn [fst snd] in L1, L2. auto.
Qed.
(** A zero source gives zero fields whatever the solver would do (it is not consulted),
    for a singular or non-singular matrix, with or without the nonlinear term. *)
Theorem C10_zero_source :
  forall e s av, nd_size (s_src s) = s_M s ->
  (forall k, (k < s_M s)%nat -> nd_buf (s_src s) k = RtoC 0) ->
  exists s' x y z, solve_fields e false av s = (s', Ok (x, y, z)) /\
    forall k, (k < s_M s)%nat -> x k = RtoC 0 /\ y k = RtoC 0 /\ z k = RtoC 0.
Proof.
  intros e s av Hs H0. destruct (solve_fields_lin e av s Hs) as [X [HX HE]]. cbv zeta in HE.
  do 4 eexists. split; [exact HE|].
  assert (E: X = vzero).
  { unfold solver_direct in HX. assert (Z: all_zero (s_M s) (rhs s) = true).
    { apply all_zero_spec. intros k Hk. unfold rhs. rewrite H0 by assumption. ring. }
    rewrite Z in HX. congruence. }
  intros k Hk. subst X. repeat split; unfold derived_fields; destruct (s_pol s); cbn [fst snd];
    unfold vscal; rewrite mv_zero; ring.
Qed.
Example C10_met : exists src, nd_size src = s_M (ex_s "Ez") /\
  exists s1 x y z, solve_fields ex_env false true (upd_src src (ex_s "Ez")) = (s1, Ok (x, y, z)) /\
  reachable ex_env (ex_s "Ez") /\ nonsingular (s_M (ex_s "Ez")) (s_A (ex_s "Ez")) /\
  exists k, (k < s_M (ex_s "Ez"))%nat /\ z k <> RtoC 0.
Proof.
  destruct (ex_fields "Ez") as (E1 & E2 & E3 & E4); [auto|].
  set (src := mkNd 3 2 (fun k => if Nat.eqb k 2 then RtoC 1 else RtoC 0)).
  exists src. assert (Hs: nd_size src = s_M (ex_s "Ez")) by (rewrite E4; reflexivity). split; [exact Hs|].
  destruct (solve_fields_lin ex_env true (upd_src src (ex_s "Ez")) Hs) as [X [HX HE]]. cbv zeta in HE.
  do 4 eexists. split; [exact HE|]. split; [apply ex_reachable; auto|]. split; [apply ex_nonsingular|].
  destruct (Classical_Prop.classic (exists k, (k < s_M (ex_s "Ez"))%nat /\ X k <> RtoC 0)) as [|Hn]; [assumption|exfalso].
  assert (HZ: forall k, (k < s_M (ex_s "Ez"))%nat -> X k = RtoC 0).
  { intros k Hk. destruct (Classical_Prop.classic (X k = RtoC 0)); [assumption|]. exfalso; apply Hn; eauto. }
  assert (S := solver_direct_correct _ _ _ _ _ _ ex_env_exact ex_nonsingular HX).
  specialize (S 2%nat ltac:(rewrite E4; lia)).
  rewrite csum_0 in S.
  - unfold rhs in S. cbn [upd_src s_src s_omega src nd_buf Nat.eqb] in S.
    assert (Ho: s_omega (ex_s "Ez") = ex_omega).
    { assert (HH := ex_s_eq "Ez" ltac:(auto)). apply Simulation_fields in HH. apply HH. }
    rewrite Ho in S. apply (f_equal Im) in S. autorewrite with reim in S. assert (HO := ex_omega_pos). lra.
  - intros k Hk. rewrite HZ by exact Hk. ring.
Qed.

(* ------------------------------------------------------------------ *)
(** * C11 *)
Theorem C11_matrix_is_helmholtz_stencil :
  forall e omega eps dl L0 s0 l, (0 < dl)%R -> (2 <= nd_nx eps)%nat -> (2 <= nd_ny eps)%nat ->
  Simulation omega eps dl (Some [0; 0]%Z) "Ez" L0 = Ok s0 ->
  let s := run_ops e l s0 in
  let Nx := nd_nx eps in let Ny := nd_ny eps in
  s_Nx s = Nx -> s_Ny s = Ny ->
  forall v i j, (i < Nx)%nat -> (j < Ny)%nat ->
    mv (Nx * Ny) (s_A s) v (pix Ny i j) =
    (RtoC (1 / (MU_0 * L0)) * laplacian dl Nx Ny v i j
     + RtoC (omega ^ 2 * (EPSILON_0 * L0) * nd_buf (s_eps s) (pix Ny i j)) * v (pix Ny i j))%C.
Proof.
  intros e omega eps dl L0 s0 l Hdl HNx HNy HS s Nx Ny EX EY v i j Hi Hj.
  assert (HC: consistent s) by (apply run_ops_consistent; eapply Simulation_consistent; eassumption).
  destruct (consistent_A s HC) as [EA _].
  destruct (history_step e omega eps dl _ _ L0 s0 l ltac:(lia) ltac:(lia) HS) as (E1 & E2 & E3 & E4 & E5 & E6). fold s in E1, E2, E3, E4, E5, E6.
  apply Simulation_fields in HS. destruct HS as (_ & _ & _ & _ & _ & _ & _ & _ & _ & HL & E9 & EP & _).
  specialize (E9 0%Z 0%Z eq_refl). specialize (EP eq_refl).
  rewrite EA, EX, EY, E1, E2, E3, E4, E5, E6, E9, EP. cbn [Z.to_nat].
  change (Z.to_nat 0, Z.to_nat 0) with (0,0)%nat.
  rewrite (mv_construct_Ez_stencil _ _ _ _ _ _ _ _ dl) by (try assumption; try lra; apply dL_new; lia).
  f_equal. unfold s_epsC, cvec. rewrite (RtoC_mult (omega ^ 2 * (EPSILON_0 * L0))). ring.
Qed.
(** Changing the permittivity at one pixel changes only that pixel's diagonal entry (any
    PML, any history, Ez). *)
Theorem C11_one_pixel_change :
  forall e s, reachable e s -> s_pol s = PolEz ->
  forall k a, nd_nx a = s_Nx s -> nd_ny a = s_Ny s ->
  (forall j, (j < s_M s)%nat -> j <> k -> nd_buf a j = nd_buf (s_eps s) j) ->
  let s' := run_ops e [SetEps a] s in
  forall r c, (r < s_M s)%nat -> (c < s_M s)%nat ->
    s_A s' r c = (s_A s r c + if Nat.eqb r k && Nat.eqb c k
                              then RtoC (s_omega s ^ 2 * (EPSILON_0 * s_L0 s) * (nd_buf a k - nd_buf (s_eps s) k))
                              else RtoC 0)%C.
Proof.
  intros e s HR HP k a Ea Eb Hj s' r c Hr Hc.
  destruct (consistent_A s (reachable_consistent e s HR)) as [EA _]. rewrite EA, HP.
  unfold s', run_ops; cbn [fold_left run_op]. unfold set_eps; cbn [s_A]. rewrite Ea, Eb, HP. unfold s_M in *.
  unfold construct_A; cbn [fst]. unfold mplus. rewrite <- !Cplus_assoc. f_equal. f_equal.
  unfold mscal, spdiags, mdiag, cvec, s_epsC, cvec.
  destruct (Nat.eqb_spec r k) as [->|Hrk]; cbn [andb].
  - destruct (Nat.eqb_spec c k) as [->|Hck].
    + rewrite Nat.eqb_refl. rewrite !RtoC_mult, RtoC_minus. ring.
    + destruct (Nat.eqb_spec k c) as [->|_]; [congruence|]. ring.
  - destruct (Nat.eqb r c); [|ring]. rewrite Hj by assumption. ring.
Qed.
Example C11_met : exists s0, Simulation ex_omega ex_eps 1 (Some [0;0]%Z) "Ez" 1 = Ok s0 /\ s_Nx s0 = nd_nx ex_eps /\ s_Ny s0 = nd_ny ex_eps.
Proof.
  exists (ex_s "Ez"). assert (H := ex_s_eq "Ez" ltac:(auto)). split; [exact H|].
  apply Simulation_fields in H. split; apply H.
Qed.

(* ------------------------------------------------------------------ *)
(** * C12 *)
Definition eps_plus_nl (s : sim) : nd R :=
  mkNd (s_Nx s) (s_Ny s) (fun k => (nd_buf (s_eps s) k + s_eps_nl s k)%R).
Theorem C12_nonlinear_matrix_Ez :
  forall e s, reachable e s -> s_pol s = PolEz ->
  forall An, s_Anl s = Some (s_M s, An) ->
  forall r c, (r < s_M s)%nat -> (c < s_M s)%nat ->
    used_matrix true s r c = s_A (set_eps (eps_plus_nl s) s) r c.
Proof.
  intros e s HR HP An HAn r c Hr Hc.
  destruct (consistent_A s (reachable_consistent e s HR)) as [EA _].
  assert (HNL := reachable_nl e s HR). unfold nl_inv in HNL.
  unfold used_matrix. rewrite HAn in *. rewrite HNL, EA, HP. unfold s_M in *.
  rewrite (Anl_is_eps _ _ _ _ _ _ _ _ _ _ true r c Hr Hc).
  unfold set_eps; cbn [s_A eps_plus_nl nd_nx nd_ny nd_buf]. rewrite HP.
  unfold construct_A; cbn [fst]. unfold mplus, mscal, spdiags, mdiag, s_epsC, cvec.
  destruct (Nat.eqb r c); [|reflexivity]. rewrite RtoC_plus. reflexivity.
Qed.
(** In Hz polarization the two matrices agree only where the nonlinear permittivity
    vanishes: on every closed domain with at least 2x2 pixels, if the matrices are equal then
    eps_nl is 0 at every pixel. *)
Lemma Hz_const omega L0 Nx Ny xr yr eps av k :
  (2 <= Nx)%nat -> (2 <= Ny)%nat -> (fst (dL Nx Ny xr yr) <> 0)%R -> (snd (dL Nx Ny xr yr) <> 0)%R ->
  (k < Nx * Ny)%nat ->
  mv (Nx * Ny) (fst (construct_A omega xr yr Nx Ny eps (0,0)%nat PolHz L0 av)) (fun _ => RtoC 1) k
  = RtoC (omega ^ 2 * (MU_0 * L0)).
Proof.
  intros HNx HNy Hdx Hdy Hk. rewrite mv_construct_Hz by assumption. cbv zeta.
  assert (HB: forall j, (j < Nx * Ny)%nat ->
     mv (Nx * Ny) (make_deriv AxX Bwd omega L0 Nx Ny (0,0)%nat xr yr) (fun _ => RtoC 1) j = RtoC 0 /\
     mv (Nx * Ny) (make_deriv AxY Bwd omega L0 Nx Ny (0,0)%nat xr yr) (fun _ => RtoC 1) j = RtoC 0).
  { intros j Hj. rewrite !make_deriv_no_pml by assumption. destruct (pix_bound _ _ _ Hj) as (a & b & Ha & Hb & ->).
    rewrite Dxb_stencil, Dyb_stencil by assumption. unfold diff_xb, diff_yb, Cdiv. split; ring. }
  unfold make_derivs, Dxf, Dxb, Dyf, Dyb.
  rewrite (mv_ext_v _ (make_deriv AxX Fwd _ _ _ _ _ _ _) _ vzero), (mv_ext_v _ (make_deriv AxY Fwd _ _ _ _ _ _ _) _ vzero).
  - rewrite !mv_zero. ring.
  - intros j Hj. destruct (HB j Hj) as [_ ->]. unfold vzero. ring.
  - intros j Hj. destruct (HB j Hj) as [-> _]. unfold vzero. ring.
Qed.
Theorem C12_nonlinear_matrix_Hz_refuted :
  forall e s, reachable e s -> s_pol s = PolHz -> s_NPML s = (0,0)%nat ->
  (2 <= s_Nx s)%nat -> (2 <= s_Ny s)%nat ->
  forall An, s_Anl s = Some (s_M s, An) ->
  (forall r c, (r < s_M s)%nat -> (c < s_M s)%nat ->
     used_matrix true s r c = s_A (set_eps (eps_plus_nl s) s) r c) ->
  forall k, (k < s_M s)%nat -> s_eps_nl s k = 0%R.
Proof.
  intros e s HR HP HN HNx HNy An HAn H k Hk.
  destruct (consistent_A s (reachable_consistent e s HR)) as [EA _].
  assert (HNL := reachable_nl e s HR). unfold nl_inv in HNL.
  destruct (reachable_physical e s HR ltac:(lia) ltac:(lia)) as (HL & Ho & Hx & Hy & _).
  assert (HE := EPSILON_0_pos).
  assert (Hdx: (fst (dL (s_Nx s) (s_Ny s) (s_xrange s) (s_yrange s)) <> 0)%R).
  { apply Rgt_not_eq. unfold dL; cbn [fst]. apply Rdiv_lt_0_compat; [lra|apply lt_0_INR; lia]. }
  assert (Hdy: (snd (dL (s_Nx s) (s_Ny s) (s_xrange s) (s_yrange s)) <> 0)%R).
  { apply Rgt_not_eq. unfold dL; cbn [snd]. apply Rdiv_lt_0_compat; [lra|apply lt_0_INR; lia]. }
  assert (E: mv (s_M s) (used_matrix true s) (fun _ => RtoC 1) k = mv (s_M s) (s_A (set_eps (eps_plus_nl s) s)) (fun _ => RtoC 1) k).
  { unfold mv. apply csum_ext; intros c Hc. rewrite H by assumption. reflexivity. }
  rewrite HAn in HNL. unfold used_matrix in E. rewrite HAn, HNL in E.
  rewrite mv_mplus in E. unfold spdiags in E. rewrite mv_diag in E by assumption.
  rewrite EA, HP, HN in E. unfold set_eps in E; cbn [s_A eps_plus_nl nd_nx nd_ny nd_buf] in E. rewrite HP, HN in E.
  unfold s_M in *. rewrite !Hz_const in E by assumption.
  apply (f_equal Re) in E. autorewrite with reim in E.
  assert (E': (s_omega s ^ 2 * EPSILON_0 * s_L0 s * s_eps_nl s k = 0)%R) by lra.
  assert (Hc: (0 < s_omega s ^ 2 * EPSILON_0 * s_L0 s)%R).
  { apply Rmult_lt_0_compat; [apply Rmult_lt_0_compat; [apply pow_lt|]|]; assumption. }
  apply Rmult_integral in E'. destruct E'; lra.
Qed.
(** such states with non-zero eps_nl are reached *)
Definition ex12 (p : string) : sim :=
  run_ops ex_env [AddNl 1 (fun _ => 1%R) "kerr" false None; ComputeNl (fun _ => RtoC 1)] (ex_s p).
Example C12_met : forall p, (p = "Ez" \/ p = "Hz")%string ->
  reachable ex_env (ex12 p) /\ (exists An, s_Anl (ex12 p) = Some (s_M (ex12 p), An)) /\
  s_eps_nl (ex12 p) 0%nat = 3%R /\ s_NPML (ex12 p) = (0,0)%nat /\ (2 <= s_Nx (ex12 p))%nat /\ (2 <= s_Ny (ex12 p))%nat.
Proof.
  intros p Hp. assert (HF := ex_fields p Hp). destruct HF as (E1 & E2 & E3 & E4).
  assert (EL: s_L0 (ex_s p) = 1%R).
  { assert (HH := ex_s_eq p Hp). apply Simulation_fields in HH. apply HH. }
  split; [|split; [|split; [|split; [|split]]]].
  - exists ex_omega, ex_eps, 1%R, (Some [0;0]%Z), p, 1%R, (ex_s p). eexists.
    repeat split; try (simpl; lra || lia). apply ex_s_eq; assumption.
  - eexists. unfold ex12, run_ops; cbn [fold_left run_op]. reflexivity.
  - unfold ex12, run_ops; cbn [fold_left run_op].
    assert (EN: s_nl (ex_s p) = []). { unfold ex_s, ex_sim_res, Simulation. rewrite ex_check by assumption. reflexivity. }
    unfold add_nl, bind, getS, lift, Nonlinearity, putS. cbn [String.eqb Ascii.eqb Bool.eqb fst]. rewrite EN.
    unfold compute_nl; cbn [s_eps_nl upd_nlvals s_nl upd_nl app]. unfold sum_eps_nl; cbn [fold_left].
    unfold kerr_eps_nl, nl_scale; cbn [nl_chi nl_region nl_eps_scale]. rewrite EL, Cmod_R, Rabs_pos_eq by lra. field.
  - unfold ex12, run_ops; cbn [fold_left run_op]. exact E3.
  - change (s_Nx (ex12 p)) with (s_Nx (ex_s p)). rewrite E1; lia.
  - change (s_Ny (ex12 p)) with (s_Ny (ex_s p)). rewrite E2; lia.
Qed.
