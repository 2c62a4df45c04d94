(** C92: a run of gradient descent can be divided into several runs (an interrupted optimization
    can be continued from the stored state); ADAM cannot, because run() forgets its moments. *)
From Coq Require Import Reals Lra Lia List ZArith Arith Bool String FunctionalExtensionality.
From Coquelicot Require Import Coquelicot.
From Verif Require Import Base Linear MCore MSim Spec PCore PSim PEx PropsCore PropsSolve PropsIter MFilter PFilter PropsFilter MOpt PDiff PGrad PExOpt PropsGrad POpt PropsOpt PropsOpt2 PSym PropsSym PropsAscent MPlot PropsShots PropsSymOpt.
Import ListNotations.
Local Open Scope nat_scope.

(** the flag set before the loop *)
Lemma current_false o : o_current o = false -> upd_current false o = o.
Proof. destruct o; cbn. intros ->. reflexivity. Qed.
Lemma run_GD_plus e step n m : forall st, run_GD e step (n + m) st = (run_GD e step n ;;; run_GD e step m) st.
Proof.
  induction n as [|n IH]; intro st; [reflexivity|].
  cbn [Nat.add]. rewrite run_GD_step. unfold bind. rewrite run_GD_step. unfold bind.
  destruct (eval_step e st) as [st1 [g|x]]; [|reflexivity]. destruct (update_rho g step st1) as [st2 [[]|x]]; [|reflexivity].
  rewrite IH. reflexivity.
Qed.
Lemma run_GD_keeps e step n : forall o s o' s', o_current o = false -> run_GD e step n (o, s) = ((o', s'), Ok tt) ->
  o_current o' = false /\ ((exists rho, s_rho s = Val rho) -> exists rho, s_rho s' = Val rho).
Proof.
  induction n as [|n IH]; intros o s o' s' HC H; [injection H as <- <-; auto|].
  rewrite run_GD_step in H. unfold bind in H. destruct (eval_step e (o, s)) as [[o1 s1] [g|x]]; [|discriminate].
  destruct (update_rho g step (o1, s1)) as [[o2 s2] [[]|x]] eqn:E; [|discriminate].
  apply update_rho_spec in E as [(_ & rho & _ & E)|((x & E) & _)]; [|discriminate]. injection E as -> ->.
  destruct (IH _ _ _ _ (eq_refl : o_current (upd_current false o1) = false) H) as [H1 H2]. split; [exact H1|]. intros _. apply H2. eexists. reflexivity.
Qed.
(** n + m iterations of gradient descent are n iterations followed by m: the same final state
    (density, permittivity, fields, objectives, source) or the same exception at the same place *)
Theorem C92_gd_resumes : forall e n m step b1 b2 st,
  run e MGD (n + m) step b1 b2 st = (run e MGD n step b1 b2 ;;; run e MGD m step b1 b2) st.
Proof.
  intros e n m step b1 b2 [o s]. unfold bind, run. cbn [fst snd]. destruct (s_rho s) as [| |rho] eqn:Er; try reflexivity.
  rewrite run_GD_plus. unfold bind. destruct (run_GD e step n _) as [[o1 s1] [[]|x]] eqn:E; [|reflexivity].
  apply run_GD_keeps in E as [HC HR]; [|reflexivity]. destruct HR as [rho1 Hr]; [eauto|]. cbn [fst snd]. rewrite Hr.
  rewrite current_false by exact HC. reflexivity.
Qed.

(** any division of the iterations into runs gives the same result *)
Fixpoint runs (e : env) (m : method) (l : list nat) (step b1 b2 : R) : St (opt * sim) unit :=
  match l with
  | [] => ret tt
  | n :: t => run e m n step b1 b2 ;;; runs e m t step b1 b2
  end.
Theorem C92_gd_any_division : forall e l1 l2 step b1 b2 st, l1 <> [] -> l2 <> [] -> list_sum l1 = list_sum l2 ->
  runs e MGD l1 step b1 b2 st = runs e MGD l2 step b1 b2 st.
Proof.
  assert (H: forall e step b1 b2 l n st, runs e MGD (n :: l) step b1 b2 st = run e MGD (list_sum (n :: l)) step b1 b2 st).
  { intros e step b1 b2. induction l as [|k l IH]; intros n st.
    - cbn [runs list_sum fold_right]. unfold list_sum. cbn [fold_right]. rewrite Nat.add_0_r. unfold bind, ret. destruct (run _ _ _ _ _ _ st) as [st1 [[]|x]]; reflexivity.
    - change (list_sum (n :: k :: l)) with (n + list_sum (k :: l)). rewrite C92_gd_resumes.
      change (runs e MGD (n :: k :: l) step b1 b2 st) with ((run e MGD n step b1 b2 ;;; runs e MGD (k :: l) step b1 b2) st).
      unfold bind. destruct (run e MGD n step b1 b2 st) as [st1 [[]|x]]; [|reflexivity]. apply IH. }
  intros e [|n1 l1] [|n2 l2] step b1 b2 st N1 N2 E; try (exfalso; congruence); rewrite !H, E; reflexivity.
Qed.
(** a run that raises leaves the design of the last complete iteration: the density and the
    permittivity are those of the run of k iterations, for some k below the requested number *)
Theorem C92_failure_keeps_last_design : forall e m n step b1 b2 o s o' s' x, m = MGD \/ m = MADAM ->
  (exists rho, s_rho s = Val rho) -> run e m n step b1 b2 (o, s) = ((o', s'), Raise x) ->
  exists k o1 s1, k < n /\ run e m k step b1 b2 (o, s) = ((o1, s1), Ok tt) /\ s_rho s' = s_rho s1 /\ s_eps s' = s_eps s1.
Proof.
  assert (HG: forall A e dir next step n i (a : A) o s o' s' x, (exists rho, s_rho s = Val rho) -> gen e dir next step n i a (o, s) = ((o', s'), Raise x) ->
    exists k o1 s1, k < n /\ gen e dir next step k i a (o, s) = ((o1, s1), Ok tt) /\ s_rho s' = s_rho s1 /\ s_eps s' = s_eps s1).
  { intros A e dir next step. induction n as [|n IH]; intros i a o s o' s' x Hr H; [discriminate|].
    cbn [gen] in H. unfold bind in H. destruct (eval_step e (o, s)) as [[o1 s1] [g|y]] eqn:E1.
    2: { injection H as <- <- _. apply eval_step_frame in E1 as [_ S1]. destruct (struct_facts _ _ S1) as (F1 & F2 & _).
         exists 0, o, s. split; [lia|]. split; [reflexivity|auto]. }
    assert (E1' := E1). apply eval_step_frame in E1' as [_ S1]. destruct (struct_facts _ _ S1) as (F1 & F2 & _).
    destruct (update_rho (dir a i g) step (o1, s1)) as [[o2 s2] [[]|y]] eqn:E2.
    - assert (E2' := E2). apply update_rho_spec in E2' as [(_ & rho & _ & E2')|((z & Hz) & _)]; [|discriminate]. injection E2' as -> ->.
      apply IH in H; [|eexists; reflexivity]. destruct H as (k & o3 & s3 & Hk & H1 & H2). exists (S k), o3, s3. split; [lia|]. split; [|exact H2].
      cbn [gen]. unfold bind. rewrite E1, E2. exact H1.
    - destruct Hr as [rho Hr]. unfold update_rho in E2. rewrite F1, Hr in E2. discriminate. }
  intros e m n step b1 b2 o s o' s' x Hm [rho Hr] H. unfold run in *. cbn [fst snd] in *. rewrite Hr in *.
  destruct Hm as [-> | ->]; [rewrite (gen_GD e step n 0) in H|rewrite gen_ADAM in H];
    (destruct (HG _ _ _ _ _ _ _ _ _ _ _ _ _ (ex_intro _ _ Hr) H) as (k & o1 & s1 & H1 & H2 & H3); exists k, o1, s1; split; [exact H1|]; split; [|exact H3]).
  - rewrite (gen_GD e step k 0). exact H2.
  - rewrite gen_ADAM. exact H2.
Qed.
(** ADAM without memory (beta1 = beta2 = 0) can be continued *)
Lemma adam_memoryless g m v i : adam_step 0 0 (adam_m 0 m g) (adam_v 0 v g) i = (g / (Rabs g + 1 / 10 ^ 8))%R.
Proof.
  unfold adam_step, adam_m, adam_v. replace (0 ^ (i + 1))%R with 0%R by (rewrite Nat.add_1_r; cbn; ring).
  replace ((0 * v + (1 - 0) * g ^ 2) / (1 - 0))%R with (Rsqr g) by (unfold Rsqr; field). rewrite sqrt_Rsqr_abs.
  replace ((0 * m + (1 - 0) * g) / (1 - 0))%R with g by field. reflexivity.
Qed.
Lemma run_ADAM_memoryless e step n : forall i i' m v m' v' st, run_ADAM e step 0 0 n i m v st = run_ADAM e step 0 0 n i' m' v' st.
Proof.
  induction n as [|n IH]; intros; [reflexivity|]. rewrite !run_ADAM_step. unfold bind. destruct (eval_step e st) as [st1 [g|x]]; [|reflexivity].
  replace (fun k => adam_step 0 0 (adam_m 0 (m' k) (g k)) (adam_v 0 (v' k) (g k)) i') with (fun k => adam_step 0 0 (adam_m 0 (m k) (g k)) (adam_v 0 (v k) (g k)) i)
    by (apply functional_extensionality; intro k; rewrite !adam_memoryless; reflexivity).
  destruct (update_rho _ step st1) as [st2 [[]|x]]; [|reflexivity]. apply IH.
Qed.
Lemma run_ADAM_plus e step b1 b2 n m : forall i mo vo, b1 = 0%R -> b2 = 0%R -> forall st,
  run_ADAM e step b1 b2 (n + m) i mo vo st = (run_ADAM e step b1 b2 n i mo vo ;;; run_ADAM e step b1 b2 m 0 (fun _ => 0%R) (fun _ => 0%R)) st.
Proof.
  intros i mo vo -> ->. revert i mo vo. induction n as [|n IH]; intros i mo vo st; [apply run_ADAM_memoryless|].
  cbn [Nat.add]. rewrite run_ADAM_step. unfold bind. rewrite run_ADAM_step. unfold bind.
  destruct (eval_step e st) as [st1 [g|x]]; [|reflexivity]. destruct (update_rho _ step st1) as [st2 [[]|x]]; [|reflexivity].
  rewrite IH. reflexivity.
Qed.
Lemma run_ADAM_keeps e step b1 b2 n : forall i m v o s o' s', o_current o = false -> run_ADAM e step b1 b2 n i m v (o, s) = ((o', s'), Ok tt) ->
  o_current o' = false /\ ((exists rho, s_rho s = Val rho) -> exists rho, s_rho s' = Val rho).
Proof.
  induction n as [|n IH]; intros i m v o s o' s' HC H; [injection H as <- <-; auto|].
  rewrite run_ADAM_step in H. unfold bind in H. destruct (eval_step e (o, s)) as [[o1 s1] [g|x]]; [|discriminate].
  destruct (update_rho _ step (o1, s1)) as [[o2 s2] [[]|x]] eqn:E; [|discriminate].
  apply update_rho_spec in E as [(_ & rho & _ & E)|((x & E) & _)]; [|discriminate]. injection E as -> ->.
  destruct (IH _ _ _ _ _ _ _ (eq_refl : o_current (upd_current false o1) = false) H) as [H1 H2]. split; [exact H1|]. intros _. apply H2. eexists. reflexivity.
Qed.
Theorem C92_adam_without_memory_resumes : forall e n m step st,
  run e MADAM (n + m) step 0 0 st = (run e MADAM n step 0 0 ;;; run e MADAM m step 0 0) st.
Proof.
  intros e n m step [o s]. unfold bind, run. cbn [fst snd]. destruct (s_rho s) as [| |rho] eqn:Er; try reflexivity.
  rewrite run_ADAM_plus by reflexivity. unfold bind. destruct (run_ADAM e step 0 0 n 0 _ _ _) as [[o1 s1] [[]|x]] eqn:E; [|reflexivity].
  apply run_ADAM_keeps in E as [HC HR]; [|reflexivity]. destruct HR as [rho1 Hr]; [eauto|]. cbn [fst snd]. rewrite Hr.
  rewrite current_false by exact HC. reflexivity.
Qed.
(* ------------------------------------------------------------------ *)
(** ** ADAM with memory: a uniform device on 2 x 2 pixels without layers *)
Definition ua_eps (r : R) : R := (1 + rhot2rhob r (1 / 2) 10 * (5 - 1))%R.
Definition ua_xr : R * R := (0, INR 2 * 1)%R.
Definition ua (r : R) (o : opt) (s : sim) : Prop :=
  cfg (pm_opt Ci) o /\ grid_of s = (ex_omega, 1%R, 2, 2, ua_xr, ua_xr, (0, 0), PolEz) /\ consistent s /\ nd_size (s_src s) = 4 /\
  (forall k, k < 4 -> nd_buf (s_src s) k = RtoC 1) /\
  exists rho, s_rho s = Val rho /\ forall k, k < 4 -> rho k = r /\ nd_buf (s_eps s) k = ua_eps r.
Definition ua_g (r : R) : R := (4 * drhob_drhot r (1 / 2) 10 / (ex_omega * EPSILON_0 * ua_eps r ^ 2))%R.
Lemma ua_eps_rho r rho k : k < 4 -> rho k = r -> rho2eps 4 rho 5 rId (1 / 2) 10 k = ua_eps r.
Proof. intros Hk <-. unfold rho2eps, rhob2eps, ua_eps, rho2rhot. rewrite (rmv_id 4 rho k Hk). reflexivity. Qed.
Lemma ua_eps_ge r : (0 <= r <= 1)%R -> (1 / 2 < ua_eps r)%R.
Proof.
  intro Hr. rewrite <- (ua_eps_rho r (fun _ => r) 0) by (lia || reflexivity). apply fam_eps_ge1; try lra. lia.
Qed.
Lemma ua_cfg c o : cfg (pm_opt c) o -> o = mkOpt (set_J (linear_obj 4 (fun _ => c)) up_args) up_design rId (1 / 2) 10 5 "linear" "hybrid" None
  (o_src_amps o) (o_objs o) (o_current o) (o_arglist o).
Proof. destruct o. unfold cfg. cbn. intros (-> & -> & -> & -> & -> & -> & -> & -> & ->). reflexivity. Qed.
Lemma ua_frame r o s o' s' : cfg o o' -> same_tidy s s' -> ua r o s -> ua r o' s'.
Proof.
  intros HC HS (H1 & H2 & H3 & H4 & H5 & rho & H6 & H7). assert (HG := struct_grid _ _ (struct_same _ _ HS)).
  destruct HS as [HS _]. assert (HCo := consistent_same _ _ HS H3). destruct HS as (_ & _ & _ & _ & _ & _ & _ & E8 & _ & _ & E11 & _ & _ & _ & _ & E16 & _).
  split; [eapply cfg_trans; eassumption|]. split; [rewrite HG; exact H2|]. split; [exact HCo|]. rewrite E8, E11, E16. split; [exact H4|]. split; [exact H5|]. exists rho. auto.
Qed.
(** the system: regular, symmetric, and constant vectors are eigenvectors *)
Lemma ua_system r o s : (0 <= r <= 1)%R -> ua r o s ->
  let K := (ex_omega ^ 2 * EPSILON_0 * ua_eps r)%R in
  nonsingular 4 (s_A s) /\ (forall z k, k < 4 -> mv 4 (s_A s) (fun _ => z) k = (RtoC K * z)%C) /\ (forall z k, k < 4 -> mv 4 (mT (s_A s)) (fun _ => z) k = (RtoC K * z)%C).
Proof.
  intros Hr (_ & HG & HC & _ & _ & rho & _ & HE) K. assert (HO := ex_omega_pos). assert (PE := EPSILON_0_pos). assert (PM := MU_0_pos).
  unfold grid_of in HG. injection HG as G1 G2 G3 G4 G5 G6 G7 G8. destruct (consistent_A s HC) as [EA _]. rewrite G1, G2, G3, G4, G5, G6, G7, G8 in EA.
  assert (Hxr: (fst ua_xr < snd ua_xr)%R) by (unfold ua_xr; cbn [fst snd INR]; lra).
  assert (Hd: dL 2 2 ua_xr ua_xr = (1, 1)%R) by (unfold ua_xr; apply dL_new; lia).
  assert (Hdx: fst (dL 2 2 ua_xr ua_xr) <> 0%R) by (rewrite Hd; cbn; lra). assert (Hdy: snd (dL 2 2 ua_xr ua_xr) <> 0%R) by (rewrite Hd; cbn; lra).
  assert (R1: forall z k, k < 4 -> mv 4 (s_A s) (fun _ => z) k = (RtoC K * z)%C).
  { intros z k Hk. assert (Hi := flat_div_lt 2 2 k Hk). assert (Hj := flat_mod_lt 2 2 k Hk). rewrite <- (flat_eta 2 k ltac:(lia)).
    set (i := k / 2) in *. set (j := k mod 2) in *. change (i * 2 + j) with (pix 2 i j). rewrite EA. change 4 with (2 * 2) at 1. rewrite A_grid by assumption. rewrite Hd. cbn [fst snd].
    rewrite !pax_no_pml. unfold ax. change (Nat.ltb 1 2) with true. cbv iota. rewrite !pax_no_pml. unfold ax. change (Nat.ltb 1 2) with true. cbv iota.
    assert (D1: RtoC 1 <> RtoC 0) by (apply RtoC_neq0; lra).
    unfold Ad_g. unfold s_epsC, cvec. destruct (HE (pix 2 i j)) as [_ ->]; [apply (flat_lt 2 2); assumption|].
    unfold K. rewrite !RtoC_mult. 
    unfold Ax_g, Ay_g. set (a1 := RtoC (1 / _)). field. exact D1. }
  split; [|split; [exact R1|]].
  - change 4 with (2 * 2). rewrite EA. unfold s_epsC. apply Ez_nonsingular_pml with (d := 1%R); try (cbn [fst snd]; lra || lia); try assumption.
    intros k Hk. destruct (HE k Hk) as [_ ->]. assert (Q := ua_eps_ge r Hr).
    replace (ex_omega ^ 2 * (EPSILON_0 * 1) * (MU_0 * 1) * (1 * 1))%R with (ex_omega ^ 2 * (EPSILON_0 * MU_0))%R by ring. rewrite ex_omega_sq. lra.
  - intros z k Hk. rewrite <- (R1 z k Hk). unfold mv. apply csum_ext. intros j Hj. f_equal. unfold mT. rewrite EA.
    apply (A_sym_no_pml ex_omega 1 2 2 ua_xr ua_xr); (assumption || lra || lia).
Qed.
Lemma ua_ready r o s : ua r o s -> lin_ready (linear_obj 4 (fun _ => Ci)) up_args o s /\ s_M s = 4 /\ s_omega s = ex_omega /\ s_L0 s = 1%R.
Proof.
  intros (H1 & HG & _ & H4 & _ & rho & H6 & _). unfold grid_of in HG. injection HG as G1 G2 G3 G4 G5 G6 G7 G8.
  assert (EM: s_M s = 4) by (unfold s_M; rewrite G3, G4; reflexivity). rewrite (ua_cfg _ _ H1).
  split; [|auto]. split; [exact G8|]. split; [rewrite EM; exact H4|]. split; [eauto|]. split; [reflexivity|]. split; [|split; reflexivity].
  constructor; [apply (new_arg_Ez "Ez"); [auto|reflexivity]|constructor].
Qed.
Lemma ua_dJ r o s : (0 <= r <= 1)%R -> ua r o s -> o_current o = false ->
  exists st g, compute_dJ ex_env (o, s) = (st, Ok g) /\ forall k, k < 4 -> g k = ua_g r.
Proof.
  intros Hr H Hc. assert (H' := H). destruct H' as (H1 & _ & _ & H4 & H5 & rho & H6 & H7). destruct (ua_ready r o s H) as ((F1 & F3 & _ & _ & HA & _) & F7 & EO & EL).
  destruct (ua_system r o s Hr H) as (HN & R1 & R2). set (K := (ex_omega ^ 2 * EPSILON_0 * ua_eps r)%R) in *.
  assert (HO := ex_omega_pos). assert (PE := EPSILON_0_pos). assert (QE := ua_eps_ge r Hr).
  assert (PK: (0 < K)%R) by (unfold K; apply Rmult_lt_0_compat; [apply Rmult_lt_0_compat|lra]; [apply pow_lt; lra|lra]).
  assert (NK: RtoC K <> RtoC 0) by (apply RtoC_neq0; lra). set (e0 := (Ci * RtoC ex_omega / RtoC K)%C).
  assert (HX: forall k, k < 4 -> lin_solution ex_env s k = e0).
  { assert (HS := lin_solution_solves ex_env s ex_env_exact). rewrite F7 in HS. specialize (HS HN).
    apply (solves_unique 4 (s_A s) _ (fun _ => e0) (rhs s) HN HS). apply solves_mv. intros k Hk. rewrite R1 by exact Hk.
    change (rhs s k) with (nd_buf (s_src s) k * Ci * RtoC (s_omega s))%C. rewrite H5, EO by exact Hk. unfold e0. field. exact NK. }
  destruct (solver_direct_default_ok ex_env 4 (mT (s_A s)) (vneg (fun _ => Ci))) as [aj Haj].
  assert (Saj := solver_direct_correct _ _ _ _ _ _ ex_env_exact (nonsingular_mT _ _ HN) Haj).
  assert (Ha: forall k, k < 4 -> aj k = (- Ci / RtoC K)%C).
  { apply (solves_unique 4 (mT (s_A s)) aj (fun _ => - Ci / RtoC K)%C _ (nonsingular_mT _ _ HN) Saj). apply solves_mv. intros k Hk. rewrite R2 by exact Hk.
    unfold vneg. field. exact NK. }
  assert (HD: compute_dJ ex_env (o, s) = ((upd_arglist [lin_solution ex_env s] o, solved ex_env s),
     Ok (fun k => 0 + Re (sensitivity 4 (pm_opt Ci) rho (lin_solution ex_env s) (dAdeps_lin (pm_opt Ci) s) aj k))%R)).
  { rewrite (ua_cfg _ _ H1), Hc. set (o1 := mkOpt _ _ _ _ _ _ _ _ _ _ _ _ _).
    unfold compute_dJ. rewrite (solve_lin_args ex_env o1 s (linear_obj 4 (fun _ => Ci)) up_args eq_refl eq_refl F1 F3 HA). unfold o1.
    cbn [o_objective upd_arglist set_J ob_grads ob_dJ ob_args up_args List.map List.combine linear_obj pf_arity List.seq oa_gradient oa_nl grad_loop run_grad].
    change (s_pol (solved ex_env s)) with (s_pol s). rewrite F1. cbn [pol_comp].
    replace (s_fields (solved ex_env s) Ez) with (Some (lin_solution ex_env s)) by (unfold solved; cbv zeta; cbn [upd_fields s_fields]; rewrite F1; reflexivity).
    unfold g_linear_Ez, pf_dcall. cbn [pf_arity pf_grad List.length stored_args o_arglist upd_arglist Nat.eqb rbind List.map]. unfold finish_linear_Ez, adjoint_linear_Ez.
    change (s_M (solved ex_env s)) with (s_M s). rewrite F7. change (s_A (solved ex_env s)) with (s_A s). cbn [linear_obj pf_arity pf_grad rbind]. rewrite Haj. cbn [rbind].
    unfold get_rho. change (s_rho (solved ex_env s)) with (s_rho s). rewrite H6. reflexivity. }
  do 2 eexists. split; [exact HD|]. intros k Hk. cbv beta. unfold sensitivity. rewrite (csum_single 4 k); [|exact Hk|].
  - rewrite HX by exact Hk. unfold rho2rhot. rewrite (rmv_id 4 rho k Hk : rmv 4 (o_W (pm_opt Ci)) rho k = rho k).
    destruct (H7 k Hk) as [-> _]. rewrite Ha by exact Hk. cbn [pm_opt o_W o_eta o_beta o_eps_m]. unfold rId at 1. rewrite Nat.eqb_refl. unfold dAdeps_lin. cbn [pm_opt o_design]. unfold up_design.
    rewrite EO, EL. transitivity (Re (RtoC (ua_g r))); [|autorewrite with reim; reflexivity]. rewrite Rplus_0_l. f_equal.
    set (D := drhob_drhot r (1 / 2) 10). assert (EG: ua_g r = ((5 - 1) * D * (1 * ex_omega ^ 2 * (EPSILON_0 * 1)) * ex_omega / (K * K))%R).
    { unfold ua_g, K. fold D. field. lra. }
    rewrite EG. unfold e0. unfold Rdiv. rewrite !RtoC_mult, RtoC_inv by (apply Rmult_integral_contrapositive; lra). rewrite RtoC_mult.
    transitivity (RtoC (5 - 1) * RtoC D * (RtoC 1 * RtoC (ex_omega ^ 2) * (RtoC EPSILON_0 * RtoC 1)) * RtoC ex_omega * / (RtoC K * RtoC K) * - (Ci * Ci))%C; [field; exact NK|rewrite Ci_sqr; ring].
  - intros j Hj Hne. cbn [pm_opt o_W]. unfold rId at 1. destruct (Nat.eqb_spec k j); [congruence|]. ring.
Qed.
(** one iteration up to the update, and the update *)
Lemma ua_eval r o s : (0 <= r <= 1)%R -> ua r o s -> o_current o = false ->
  exists o' s' g, eval_step ex_env (o, s) = ((o', s'), Ok g) /\ ua r o' s' /\ forall k, k < 4 -> g k = ua_g r.
Proof.
  intros Hr H Hc. destruct (ua_ready r o s H) as ((F1 & F2 & F3 & F4 & F5 & F6 & F7) & FM & _).
  unfold eval_step, bind, modS. assert (HJ := compute_J_lin ex_env o s _ _ Hc F4 F1 F2 F5 F6). rewrite HJ. cbn [fst snd].
  destruct (compute_J_frame _ _ _ _ _ _ HJ) as (C1 & S1 & _). set (o1 := upd_arglist _ o) in *. set (s1 := solved ex_env s) in *. set (v := pf_val _ _).
  assert (C1': cfg o (push_obj v o1)) by exact C1.
  destruct (set_source_amplitude ex_env (push_obj v o1, s1)) as [[o2 s2] r2] eqn:E2. apply set_amp_frame in E2 as (C2 & _ & _ & _ & HC2 & HN2).
  destruct HN2 as [-> ->]; [exact F7|]. specialize (HC2 eq_refl).
  assert (U: ua r o2 s1) by (eapply ua_frame; [eapply cfg_trans; [exact C1'|exact C2]|exact S1|exact H]).
  destruct (ua_dJ r o2 s1 Hr U HC2) as ([o3 s3] & g & HD & Hg). exists o3, s3, g. split; [exact HD|]. split; [|exact Hg].
  destruct (compute_dJ_frame _ _ _ _ _ _ HD) as (C3 & S3 & _). eapply ua_frame; eassumption.
Qed.
Lemma ua_update r o s g d step : ua r o s -> (forall k, k < 4 -> g k = d) ->
  exists o' s', update_rho g step (o, s) = ((o', s'), Ok tt) /\ ua (clip01 (r + step * d)) o' s' /\ o_current o' = false.
Proof.
  intros H Hg. assert (FM := proj1 (proj2 (ua_ready r o s H))). destruct H as (H1 & H2 & H3 & H4 & H5 & rho & H6 & H7). unfold update_rho. rewrite H6. do 2 eexists. split; [reflexivity|]. split; [|reflexivity].
  split; [exact H1|]. split; [exact H2|]. split; [apply set_eps_consistent|]. split; [exact H4|]. split; [exact H5|].
  eexists. split; [reflexivity|]. intros k Hk. destruct (H7 k Hk) as [Hr _].
  assert (E: clip01 (rho k + o_design o k * step * g k) = clip01 (r + step * d)).
  { rewrite (ua_cfg _ _ H1). cbn [o_design]. unfold up_design. rewrite Hr, Hg by exact Hk. f_equal. ring. }
  split; [exact E|]. set (rho1 := fun k0 => clip01 _) in *. change (rho2eps (s_M s) rho1 (o_eps_m o) (o_W o) (o_eta o) (o_beta o) k = ua_eps (clip01 (r + step * d))).
  rewrite FM, (ua_cfg _ _ H1). cbn [o_eps_m o_W o_eta o_beta]. apply ua_eps_rho; [exact Hk|exact E].
Qed.
(** numbers *)
Lemma cosh_bounds : (14 < cosh (5 / 2) ^ 2 < 1000)%R.
Proof.
  assert (H1: (1 + 1 / 2 < exp (1 / 2))%R) by (apply exp_ineq1; lra). assert (H2 := exp_le_3).
  assert (E1: (exp (5 / 2) = exp (1 / 2) ^ 5)%R) by (cbn [pow]; rewrite Rmult_1_r, <- !exp_plus; f_equal; lra).
  assert (E2: (exp 1 = exp (1 / 2) ^ 2)%R) by (cbn [pow]; rewrite Rmult_1_r, <- !exp_plus; f_equal; lra).
  set (t := exp (1 / 2)) in *. assert (H3 := exp_pos (- (5 / 2))). assert (H4: (exp (- (5 / 2)) < 1)%R) by (rewrite <- exp_0; apply exp_increasing; lra).
  assert (H5: (3 / 2 * (3 / 2) < t ^ 2)%R) by nra. assert (H6: (t < 2)%R) by nra.
  assert (H7: (t ^ 5 = t ^ 2 * t ^ 2 * t)%R) by ring.
  assert (H8: (81 / 16 < t ^ 2 * t ^ 2 <= 9)%R) by nra. assert (H9: (243 / 32 < t ^ 5 < 18)%R) by nra.
  unfold cosh. rewrite E1. set (u := (t ^ 5)%R) in *. set (w := exp (- (5 / 2))) in *. split; nra.
Qed.
Lemma sech2 x : (1 - tanh x ^ 2 = 1 / cosh x ^ 2)%R.
Proof.
  assert (H := PTanh.cosh_pos x). assert (H2 := PTanh.cosh_sinh x). unfold tanh.
  replace (1 / cosh x ^ 2)%R with ((cosh x * cosh x - sinh x * sinh x) / cosh x ^ 2)%R by (rewrite H2; reflexivity). field. lra.
Qed.
Lemma tanh_lt1 x : (tanh x < 1)%R.
Proof. rewrite PTanh.tanh_exp. assert (H := exp_pos (2 * x)). assert (0 < 2 / (exp (2 * x) + 1))%R by (apply Rdiv_lt_0_compat; lra). lra. Qed.
Lemma ua_W : (0 < ex_omega * EPSILON_0 < 1)%R.
Proof.
  assert (H := ex_omega_pos). assert (P := EPSILON_0_pos). assert (PM := MU_0_pos). assert (E := ex_omega_sq). split; [apply Rmult_lt_0_compat; lra|].
  assert (H1: ((ex_omega * EPSILON_0) ^ 2 * MU_0 = 16 * EPSILON_0)%R) by (rewrite <- E; ring).
  assert (H2: (16 * EPSILON_0 < MU_0)%R) by (unfold EPSILON_0, MU_0; lra).
  assert (H3: (0 < ex_omega * EPSILON_0)%R) by (apply Rmult_lt_0_compat; lra). set (w := (ex_omega * EPSILON_0)%R) in *.
  destruct (Rlt_dec w 1) as [L|L]; [exact L|]. assert (1 <= w ^ 2)%R by nra. nra.
Qed.
Lemma ua_eps_le r : (0 <= r <= 1)%R -> (1 <= ua_eps r <= 5)%R.
Proof.
  intro Hr. rewrite <- (ua_eps_rho r (fun _ => r) 0) by (lia || reflexivity).
  destruct (C25_permittivity_in_range 4 (fun _ => r) 5 (1 / 2) 10 ltac:(lra) ltac:(lra) ltac:(lra) 0 ltac:(lia)) as [H _]. exact (H Hr).
Qed.
Lemma ua_numbers : (0 < ua_g (3 / 4) /\ 1 / 10 ^ 5 < ua_g (3 / 4) /\ 14 * ua_g (3 / 4) < ua_g (1 / 2))%R.
Proof.
  destruct ua_W as [W0 W1]. destruct (ua_eps_le (1 / 2) ltac:(lra)) as [A1 A2]. destruct (ua_eps_le (3 / 4) ltac:(lra)) as [B1 B2].
  assert (AB: (ua_eps (1 / 2) < ua_eps (3 / 4))%R).
  { unfold ua_eps. destruct (C21_projection_endpoints_and_monotone (1 / 2) 10 ltac:(lra) ltac:(lra)) as (_ & _ & PM & _). assert (H := PM (1 / 2)%R (3 / 4)%R ltac:(lra)). lra. }
  unfold ua_g, drhob_drhot. set (a := ua_eps (1 / 2)) in *. set (b := ua_eps (3 / 4)) in *. set (w := (ex_omega * EPSILON_0)%R) in *.
  replace (10 * (1 / 2 - 1 / 2))%R with 0%R by lra. rewrite PTanh.tanh_0'. replace (10 * (3 / 4 - 1 / 2))%R with (5 / 2)%R by lra.
  assert (HD := proj_den (1 / 2) 10 ltac:(lra) ltac:(lra)). assert (HD2: (tanh (10 * (1 / 2)) + tanh (10 * (1 - 1 / 2)) < 2)%R) by (assert (H1 := tanh_lt1 (10 * (1 / 2))); assert (H2 := tanh_lt1 (10 * (1 - 1 / 2))); lra).
  set (D := (tanh (10 * (1 / 2)) + tanh (10 * (1 - 1 / 2)))%R) in *.
  replace (10 - 10 * tanh (5 / 2) ^ 2)%R with (10 * (1 / cosh (5 / 2) ^ 2))%R by (rewrite <- sech2; ring).
  destruct cosh_bounds as [C1 C2]. set (c := (cosh (5 / 2) ^ 2)%R) in *.
  assert (Hb: (1 <= b ^ 2 <= 25)%R) by nra. assert (Ha: (1 <= a ^ 2)%R) by nra. assert (Hab: (a ^ 2 < b ^ 2)%R) by nra.
  assert (HQ: (0 < D * w < 2)%R) by nra.
  assert (HP: (0 < D * w * b ^ 2 < 50)%R) by nra.
  assert (HY: (4 * (10 * (1 / c) / D) / (w * b ^ 2) = 40 / (c * (D * w * b ^ 2)))%R) by (field; repeat split; nra).
  assert (HX: (4 * ((10 - 10 * 0 ^ 2) / D) / (w * a ^ 2) = 40 / (D * w * a ^ 2))%R) by (field; repeat split; nra).
  rewrite HY, HX. set (p := (D * w * b ^ 2)%R) in *.
  assert (HPP: (0 < c * p < 50000)%R) by nra.
  split; [apply Rdiv_lt_0_compat; lra|]. split.
  - apply (Rmult_lt_reg_r (c * p)); [lra|]. unfold Rdiv at 2. rewrite Rmult_assoc, Rinv_l by lra. lra.
  - assert (HA: (0 < D * w * a ^ 2)%R) by nra. assert (HH: (D * w * a ^ 2 < p)%R) by (unfold p; nra).
    apply (Rmult_lt_reg_r (c * p)); [lra|]. replace (14 * (40 / (c * p)) * (c * p))%R with 560%R by (field; nra).
    apply (Rmult_lt_reg_r (D * w * a ^ 2)); [lra|]. replace (40 / (D * w * a ^ 2) * (c * p) * (D * w * a ^ 2))%R with (40 * (c * p))%R by (field; repeat split; nra). nra.
Qed.
(** the second step: the restarted optimizer moves by more than 0.99 of the first step, the
    uninterrupted one by less than 0.74 *)
Lemma ua_second x y : (0 < y)%R -> (1 / 10 ^ 5 < y)%R -> (14 * y < x)%R ->
  let d := (1 / 10 ^ 8)%R in
  (adam_step (9 / 10) (999 / 1000) (adam_m (9 / 10) (adam_m (9 / 10) 0 x) y) (adam_v (999 / 1000) (adam_v (999 / 1000) 0 x) y) 1 < 9 / 10 < y / (Rabs y + d))%R /\
  (0 < adam_step (9 / 10) (999 / 1000) (adam_m (9 / 10) (adam_m (9 / 10) 0 x) y) (adam_v (999 / 1000) (adam_v (999 / 1000) 0 x) y) 1)%R /\
  (y / (Rabs y + d) < x / (Rabs x + d))%R.
Proof.
  intros H1 H2 H3 d. assert (Hd: (0 < d < 1 / 10 ^ 7)%R) by (unfold d; lra). rewrite (Rabs_pos_eq y), (Rabs_pos_eq x) by lra.
  set (s := adam_step _ _ _ _ _).
  assert (HS: exists n q, s = (n / (q + d))%R /\ (0 < n /\ n <= 52 / 100 * x /\ 7 / 10 * x <= q)%R).
  { unfold s, adam_step, adam_m, adam_v. change (1 + 1) with 2. eexists. eexists. split; [reflexivity|].
    split; [|split].
    - apply Rdiv_lt_0_compat; lra.
    - apply Rle_div_l; lra.
    - rewrite <- (sqrt_Rsqr (7 / 10 * x)) by lra. apply sqrt_le_1_alt. unfold Rsqr.
      assert (HZ: (0 < 1 - (999 / 1000) ^ 2)%R) by lra. apply (proj1 (Rle_div_r (7 / 10 * x * (7 / 10 * x))%R _ _ HZ)). assert (Hx2 := Rle_0_sqr x); assert (Hy2 := Rle_0_sqr y); unfold Rsqr in Hx2, Hy2. replace (y ^ 2)%R with (y * y)%R by ring. replace (x ^ 2)%R with (x * x)%R by ring. replace (7 / 10 * x * (7 / 10 * x))%R with (49 / 100 * (x * x))%R by field. lra. }
  destruct HS as (n & q & -> & Hn & Hn2 & Hq). repeat split.
  - apply Rlt_div_l; lra.
  - assert (HZ: (0 < y + d)%R) by lra. apply (proj1 (Rlt_div_r (9 / 10) y _ HZ)). lra.
  - apply Rdiv_lt_0_compat; lra.
  - apply (Rmult_lt_reg_r ((y + d) * (x + d))); [nra|]. replace (y / (y + d) * ((y + d) * (x + d)))%R with (y * (x + d))%R by (field; lra).
    replace (x / (x + d) * ((y + d) * (x + d)))%R with (x * (y + d))%R by (field; lra). nra.
Qed.
(** with the default parameters beta1 = 0.9 and beta2 = 0.999, two iterations of ADAM are not one
    iteration followed by another one *)
Theorem C92_adam_resumes_refuted : exists J args o s step, lin_ready J args o s /\ consistent s /\ physical s /\ solver_exact ex_env /\
  exists o1 s1 rho1 o2 s2 rho2,
    run ex_env MADAM (1 + 1) step (9 / 10) (999 / 1000) (o, s) = ((o1, s1), Ok tt) /\ s_rho s1 = Val rho1 /\
    (run ex_env MADAM 1 step (9 / 10) (999 / 1000) ;;; run ex_env MADAM 1 step (9 / 10) (999 / 1000)) (o, s) = ((o2, s2), Ok tt) /\ s_rho s2 = Val rho2 /\
    forall k, k < s_M s -> (rho1 k < rho2 k)%R.
Proof.
  destruct (fam_sim_ok "Ez" 2 2 0 0 (fun _ => 1%R) (or_introl eq_refl)) as [s0 H0].
  set (s := with_density (pm_opt Ci) (upd_src (mkNd 2 2 (fun _ => RtoC 1)) s0) up_rho).
  destruct (Simulation_fields _ _ _ _ _ _ _ H0) as (E1 & E2 & E3 & E4 & E5 & E6 & E7 & E8 & P1 & P2 & E9 & EP & _ & _).
  specialize (E9 _ _ eq_refl). specialize (EP eq_refl). cbn [nd_nx nd_ny] in *. rewrite !Nat2Z.id in E9.
  destruct (fam_facts 2 2 0 0 (fun _ => 1%R) s0 (pm_opt Ci) (fun _ => RtoC 1) up_rho H0 ltac:(lia) ltac:(lia)) as (F1 & F2 & F3 & F4 & F5 & F6 & F7 & F8).
  { intros k Hk. apply fam_eps_ge1; try (cbn; lra); [exact Hk|unfold up_rho; lra]. }
  fold s in F1, F2, F3, F4, F5, F6, F7, F8. change (2 * 2) with 4 in F7.
  assert (U: ua (1 / 2) (pm_opt Ci) s).
  { split; [apply cfg_refl|]. split; [unfold grid_of; change (s_omega s) with (s_omega s0); change (s_xrange s) with (s_xrange s0); change (s_yrange s) with (s_yrange s0);
      change (s_Nx s) with (s_Nx s0); change (s_Ny s) with (s_Ny s0); change (s_NPML s) with (s_NPML s0); change (s_pol s) with (s_pol s0); change (s_L0 s) with (s_L0 s0); rewrite E1, E2, E3, E4, E6, E7, E9, EP; reflexivity|].
    split; [exact F2|]. split; [reflexivity|]. split; [reflexivity|]. exists up_rho. split; [exact F5|]. intros k Hk. split; [reflexivity|].
    rewrite (F6 : forall k, _) by (rewrite F7; exact Hk). rewrite F7. apply (ua_eps_rho (1 / 2)%R); [exact Hk|reflexivity]. }
  destruct ua_numbers as (N1 & N2 & N3). set (x := ua_g (1 / 2)) in *. set (y := ua_g (3 / 4)) in *.
  destruct (ua_second x y N1 N2 N3) as ((A1 & A2) & A3 & A4). set (d := (1 / 10 ^ 8)%R) in *. set (z := adam_step _ _ _ _ _) in *.
  set (q := (x / (Rabs x + d))%R) in *. assert (Hq: (9 / 10 < q)%R) by lra. set (step := (1 / 4 / q)%R).
  assert (Hs: (0 < step)%R) by (apply Rdiv_lt_0_compat; lra). assert (Hsq: (step * q = 1 / 4)%R) by (unfold step; field; lra).
  exists (linear_obj 4 (fun _ => Ci)), up_args, (pm_opt Ci), s, step. split; [exact (proj1 (ua_ready _ _ _ U))|]. split; [exact F2|]. split; [exact F8|]. split; [exact ex_env_exact|].
  assert (Hc: forall v, (0 <= v <= 1)%R -> clip01 v = v) by (intros; apply clip01_id; assumption).
  set (b1 := (9 / 10)%R) in *. set (b2 := (999 / 1000)%R) in *.
  (* first iteration *)
  assert (U0: ua (1 / 2) (upd_current false (pm_opt Ci)) s) by exact U.
  destruct (ua_eval (1 / 2) _ s ltac:(lra) U0 eq_refl) as (oa & sa & g1 & Ha & Ua & Hg1).
  assert (Hstep1: forall k, k < 4 -> adam_step b1 b2 (adam_m b1 0 (g1 k)) (adam_v b2 0 (g1 k)) 0 = q).
  { intros k Hk. rewrite first_adam_step by (unfold b1, b2; lra). rewrite Hg1 by exact Hk. reflexivity. }
  destruct (ua_update (1 / 2) oa sa (fun k => adam_step b1 b2 (adam_m b1 0 (g1 k)) (adam_v b2 0 (g1 k)) 0) q step Ua Hstep1) as (ob & sb & Hb & Ub & Cb).
  rewrite Hc in Ub by lra. replace (1 / 2 + step * q)%R with (3 / 4)%R in Ub by lra.
  (* second iteration *)
  destruct (ua_eval (3 / 4) ob sb ltac:(lra) Ub Cb) as (oc & sc & g2 & Hcc & Uc & Hg2).
  assert (HF: run ex_env MADAM 1 step b1 b2 (pm_opt Ci, s) = ((ob, sb), Ok tt)).
  { unfold run. cbn [fst snd]. rewrite F5. rewrite run_ADAM_step. unfold bind. rewrite Ha, Hb. reflexivity. }
  assert (Hz: forall k, k < 4 -> adam_step b1 b2 (adam_m b1 (adam_m b1 0 (g1 k)) (g2 k)) (adam_v b2 (adam_v b2 0 (g1 k)) (g2 k)) 1 = z).
  { intros k Hk. rewrite Hg1, Hg2 by exact Hk. reflexivity. }
  assert (Hz2: forall k, k < 4 -> adam_step b1 b2 (adam_m b1 0 (g2 k)) (adam_v b2 0 (g2 k)) 0 = (y / (Rabs y + d))%R).
  { intros k Hk. rewrite first_adam_step by (unfold b1, b2; lra). rewrite Hg2 by exact Hk. reflexivity. }
  destruct (ua_update (3 / 4) oc sc _ _ step Uc Hz) as (od & sd & Hd & (_ & _ & _ & _ & _ & rho1 & R1 & V1) & _).
  destruct (ua_update (3 / 4) oc sc _ _ step Uc Hz2) as (oe & se & He & (_ & _ & _ & _ & _ & rho2 & R2 & V2) & _).
  exists od, sd, rho1, oe, se, rho2. split; [|split; [exact R1|split; [|split; [exact R2|]]]].
  - unfold run. cbn [fst snd]. rewrite F5. cbn [Nat.add]. rewrite run_ADAM_step. unfold bind. rewrite Ha, Hb. rewrite run_ADAM_step. unfold bind. rewrite Hcc, Hd. reflexivity.
  - unfold bind. rewrite HF. unfold run. cbn [fst snd]. destruct Ub as (_ & _ & _ & _ & _ & rhob & Hrb & _). rewrite Hrb.
    rewrite (current_false ob Cb). rewrite run_ADAM_step. unfold bind. rewrite Hcc, He. reflexivity.
  - intros k Hk. rewrite F7 in Hk. destruct (V1 k Hk) as [-> _]. destruct (V2 k Hk) as [-> _].
    assert (Q1: (step * z < step * (y / (Rabs y + d)))%R) by (apply Rmult_lt_compat_l; lra).
    assert (Q2: (step * (y / (Rabs y + d)) < step * q)%R) by (apply Rmult_lt_compat_l; lra).
    assert (Q3: (0 < step * z)%R) by (apply Rmult_lt_0_compat; lra).
    rewrite !Hc by lra. lra.
Qed.
(** the statements are about runs that happen: on the device above every division of gradient
    descent succeeds, and for an objective function with more parameters than arguments every
    run raises TypeError *)
Example C92_met : exists o s, (exists rho, s_rho s = Val rho) /\
  (forall l step b1 b2, exists o' s', runs ex_env MGD l step b1 b2 (o, s) = ((o', s'), Ok tt)) /\
  let o2 := mkOpt (reassign_J (linear_obj 4 (fun _ => Ci)) (set_J (linear_obj 4 (fun _ => Ci)) [])) up_design rId (1 / 2) 10 5 "linear" "hybrid" None [] [] false None in
  forall m n step b1 b2, m = MGD \/ m = MADAM -> exists st, run ex_env m (S n) step b1 b2 (o2, s) = (st, Raise TypeError).
Proof.
  destruct (fam_sim_ok "Ez" 2 2 0 0 (fun _ => 1%R) (or_introl eq_refl)) as [s0 H0].
  set (s := with_density (pm_opt Ci) (upd_src (mkNd 2 2 (fun _ => RtoC 1)) s0) up_rho).
  destruct (fam_facts 2 2 0 0 (fun _ => 1%R) s0 (pm_opt Ci) (fun _ => RtoC 1) up_rho H0 ltac:(lia) ltac:(lia)) as (F1 & F2 & F3 & F4 & F5 & F6 & F7 & F8).
  { intros k Hk. apply fam_eps_ge1; try (cbn; lra); [exact Hk|unfold up_rho; lra]. }
  fold s in F1, F2, F3, F4, F5, F6, F7, F8.
  exists (pm_opt Ci), s. split; [eauto|]. split.
  - intros l step b1 b2. assert (HR: lin_ready (linear_obj 4 (fun _ => Ci)) up_args (pm_opt Ci) s).
    { split; [exact F1|]. split; [exact F3|]. split; [eauto|]. split; [reflexivity|]. split; [|split; reflexivity]. constructor; [apply (new_arg_Ez "Ez"); [auto|reflexivity]|constructor]. }
    revert HR. generalize (pm_opt Ci) as o. clearbody s. clear -s. revert s. induction l as [|n l IH]; intros s o HR; [exists o, s; reflexivity|].
    destruct (run_succeeds ex_env MGD n step b1 b2 _ _ o s (or_introl eq_refl) HR) as (o1 & s1 & H1 & R1). cbn [runs]. unfold bind. rewrite H1. apply IH, R1.
  - intros o2 m n step b1 b2 Hm. assert (HE: exists st, eval_step ex_env (upd_current false o2, s) = (st, Raise TypeError)).
    { unfold eval_step, compute_J, bind. rewrite (solve_lin_args ex_env (upd_current false o2) s (linear_obj 4 (fun _ => Ci)) [] eq_refl eq_refl F1 F3 ltac:(constructor)). eexists. reflexivity. }
    destruct HE as [st HE]. exists st. unfold run. cbn [fst snd]. rewrite F5. destruct Hm as [-> | ->]; [rewrite run_GD_step|rewrite run_ADAM_step]; unfold bind; rewrite HE; reflexivity.
Qed.
