(** C101: nonlinear fields conserve power, converged or not. *)
From Coq Require Import Reals Lra Lia List ZArith Arith Bool String.
From Coquelicot Require Import Coquelicot.
From Verif Require Import Base Linear MCore MSim Spec PCore PSim PEx PropsCore PropsSolve PropsNl PropsLin PropsIter PropsFlux.
Import ListNotations.
Local Open Scope nat_scope.

(** what every solver returns is a solve with the permittivity of some field frozen *)
Lemma frozen e av Es name thr n s s' a b Y conv : name = "born"%string \/ name = "newton"%string \/ name = "hybrid"%string ->
  solve_fields_nl e av Es name thr n s = (s', Ok (a, b, Y, conv)) ->
  exists E s1, same_problem s s1 /\ solve_fields e true false (compute_nl E s1) = (compute_nl E s1, Ok (a, b, Y)).
Proof.
  assert (HB : forall Es n s s' a b Y conv, born_solve e Es thr n av s = (s', Ok (a, b, Y, conv)) ->
    exists E s1, same_problem s s1 /\ s' = compute_nl E s1 /\ solve_fields e true false (compute_nl E s1) = (compute_nl E s1, Ok (a, b, Y))).
  { intros. apply born_solve_spec in H as (s1 & F0 & Fp & l0 & c & _ & HS & _ & _ & -> & ES & _). exists Fp, s1. auto. }
  assert (HN : forall Es n s s' a b Y conv, newton_solve e Es thr n av s = (s', Ok (a, b, Y, conv)) ->
    exists E s1, same_problem s s1 /\ solve_fields e true false (compute_nl E s1) = (compute_nl E s1, Ok (a, b, Y))).
  { intros. apply newton_solve_spec in H as (s1 & Ep & d & l0 & c & _ & _ & HS & HR). cbv zeta in HR. destruct HR as (_ & _ & _ & _ & _ & ES & _). exists (vminus Ep d), s1. auto. }
  unfold solve_fields_nl. intros Hn H.
  destruct (run_solver_nl e av Es name thr n s) as [s2 [[F c2]|]] eqn:Q; [|discriminate]. injection H as <- -> ->.
  destruct Hn as [-> | [-> | ->]].
  - unfold run_solver_nl in Q. rewrite String.eqb_refl in Q. apply HB in Q as (E & s1 & H1 & _ & H2). exists E, s1. auto.
  - unfold run_solver_nl in Q. change (String.eqb "newton" "born") with false in Q. rewrite String.eqb_refl in Q. cbv iota in Q. eapply HN; exact Q.
  - rewrite hybrid_unfold in Q. destruct (born_solve e Es thr 20 av s) as [s3 [[[[a3 b3] Y3] c3]|]] eqn:Q3; [|discriminate].
    apply HB in Q3 as (E & s1 & H1 & -> & H2). destruct (last_conv c3) as [c|]; [|discriminate]. destruct (xgt c _).
    + apply HN in Q as (E' & s4 & H4 & H5). exists E', s4. split; [|exact H5]. eapply same_trans; [exact H1|]. eapply same_trans; [|exact H4]. unfold same_problem; repeat split; reflexivity.
    + injection Q as _ <- <- <- <-. exists E, s1. auto.
Qed.

(** Without PML no net power leaves a Kerr medium: any number of iterations, converged or not, both polarizations. *)
Theorem C101_no_net_power :
  forall e av Es name thr n s s' a b F conv, reachable e s -> solver_exact e -> 0 < s_Nx s -> 0 < s_Ny s -> s_NPML s = (0, 0) ->
  (forall E, nonsingular (s_M s) (nl_matrix s E)) ->
  name = "born"%string \/ name = "newton"%string \/ name = "hybrid"%string ->
  solve_fields_nl e av Es name thr n s = (s', Ok (a, b, F, conv)) ->
  Re (csum (s_M s) (fun k => (Cconj (nd_buf (s_src s) k) * F k)%C)) = 0%R.
Proof.
  intros e av Es name thr n s s' a b F conv HR He HNx HNy HN HA Hn H.
  apply frozen in H as (E & s1 & SP & H); [|exact Hn].
  assert (HP := reachable_physical e s HR HNx HNy). destruct HP as (HL & Ho & Hx & Hy & _).
  destruct (consistent_A s (reachable_consistent e s HR)) as [EA _]. rewrite HN in EA.
  apply solve_nl_inv in H as (_ & _ & H). destruct (same_rhs _ _ SP) as (ER & EM & _). rewrite ER, EM, (nl_matrix_same s s1 E SP) in H.
  assert (S1 := solver_direct_correct _ _ _ _ _ _ He (HA E) H).
  assert (Hsym: forall r c, r < s_M s -> c < s_M s -> nl_matrix s E r c = nl_matrix s E c r).
  { intros r c Hr Hc. unfold nl_matrix, mplus, mdiag. assert (EE: s_A s r c = s_A s c r) by (rewrite EA; apply A_sym_no_pml; assumption).
    rewrite EE, (Nat.eqb_sym r c). destruct (Nat.eqb_spec c r) as [->|]; reflexivity. }
  assert (Hreal: forall r c, r < s_M s -> c < s_M s -> Cconj (nl_matrix s E r c) = nl_matrix s E r c).
  { intros r c Hr Hc. unfold nl_matrix, mplus, mdiag. assert (EE: Cconj (s_A s r c) = s_A s r c) by (rewrite EA; apply A_real_no_pml; try assumption; intro j; apply Cconj_RtoC).
    rewrite Cconj_plus, EE. destruct (Nat.eqb r c); rewrite Cconj_RtoC; reflexivity. }
  assert (Q := real_sym_no_power _ _ _ _ Hsym Hreal S1). unfold rhs in Q.
  rewrite (csum_ext (s_M s) _ (fun k => (Ci * RtoC (s_omega s) * (Cconj (F k) * nd_buf (s_src s) k))%C)) in Q by (intros; ring).
  rewrite csum_scal in Q. rewrite Im_mult in Q. autorewrite with reim in Q.
  assert (EQ: Re (csum (s_M s) (fun k => (Cconj (F k) * nd_buf (s_src s) k)%C)) = 0%R).
  { apply (Rmult_eq_reg_l (s_omega s)); [|lra]. lra. }
  rewrite <- EQ. rewrite !Re_csum. apply rsum_ext; intros k Hk. autorewrite with reim. ring.
Qed.

(** the simulation whose permittivity is the total one *)
Definition total_eps (s : sim) (E : vec) : nd R := mkNd (s_Nx s) (s_Ny s) (fun k => (nd_buf (s_eps s) k + s_eps_nl (compute_nl E s) k)%R).
Lemma total_A s E : consistent s -> s_pol s = PolEz -> forall r c, r < s_M s -> c < s_M s -> s_A (set_eps (total_eps s E) s) r c = nl_matrix s E r c.
Proof.
  intros HC HP r c Hr Hc. destruct (consistent_A s HC) as [EA _]. unfold nl_matrix. rewrite EA. unfold set_eps; cbn [s_A total_eps nd_nx nd_ny nd_buf]. rewrite HP.
  unfold construct_A; cbn [fst]. unfold mplus, mscal, spdiags, mdiag, s_epsC, cvec.
  destruct (Nat.eqb r c); [|ring]. rewrite !RtoC_plus, !RtoC_mult. ring.
Qed.

(** In a Kerr medium, too, the power through the interfaces is the same on both sides of every source-free
    column. *)
Theorem C101_interface_power :
  forall e av Es name thr n s s' d hx hy z conv i, plain_Ez s d -> solver_exact e ->
  (forall E, nonsingular (s_M s) (nl_matrix s E)) ->
  name = "born"%string \/ name = "newton"%string \/ name = "hybrid"%string ->
  solve_fields_nl e av Es name thr n s = (s', Ok (hx, hy, z, conv)) -> i < s_Nx s -> source_free s i ->
  rsum (s_Ny s) (interface_density (s_Nx s) (s_Ny s) z hy i) =
  rsum (s_Ny s) (interface_density (s_Nx s) (s_Ny s) z hy (next (s_Nx s) i)).
Proof.
  intros e av Es name thr n s s' d hx hy z conv i PL He HA Hn H Hi HS.
  apply frozen in H as (E & s1 & SP & H); [|exact Hn].
  assert (PL' := PL). destruct PL' as (HC & HP & HN & HD & Hd & Hdl & HNx & HNy & HL & Ho).
  set (sh := set_eps (total_eps s E) s).
  assert (PH : plain_Ez sh d). { split; [apply set_eps_consistent|]. exact (conj HP (conj HN (conj HD (conj Hd (conj Hdl (conj HNx (conj HNy (conj HL Ho)))))))). }
  assert (EMh : s_M sh = s_M s) by reflexivity.
  assert (NSh : nonsingular (s_M sh) (s_A sh)) by (apply (nonsingular_ext _ (nl_matrix s E)); [intros r c Hr Hc; symmetry; apply total_A; assumption|apply HA]).
  assert (HZ := H). apply solve_nl_inv in HZ as (_ & HSz & HZ). destruct (same_rhs _ _ SP) as (ER & EM & _). rewrite ER, EM, (nl_matrix_same s s1 E SP) in HZ.
  assert (S1 := solver_direct_correct _ _ _ _ _ _ He (HA E) HZ).
  assert (ESrc : nd_size (s_src sh) = s_M sh). { change (nd_size (s_src s) = s_M s). rewrite <- EM, <- HSz. destruct SP as (_ & _ & _ & _ & _ & _ & _ & -> & _). reflexivity. }
  destruct (solve_fields_lin e false sh ESrc) as (zh & HX & HH). cbv zeta in HH.
  set (hxh := fst (derived_fields sh (s_epsC sh) false zh)) in HH. set (hyh := snd (derived_fields sh (s_epsC sh) false zh)) in HH.
  assert (Ez' : veq (s_M s) zh z).
  { assert (S2 := solver_direct_correct _ _ _ _ _ _ He NSh HX). apply (solves_unique (s_M s) (nl_matrix s E) zh z (rhs s) (HA E)); [|exact S1].
    apply solves_mv. intros k Hk. assert (Q := S2 k Hk). change (mv (s_M s) (s_A sh) zh k = rhs s k) in Q. rewrite <- Q. symmetry. apply (mv_ext _ _ _ zh zh); [|intros ? _; reflexivity|exact Hk].
    intros r c Hr Hc. apply total_A; assumption. }
  assert (Ehy : veq (s_M s) hyh hy).
  { apply solve_fields_ok in H as (_ & _ & H & _). unfold derived_fields in H. cbn [compute_nl upd_nlvals s_pol s_derivs s_omega s_L0 s_Nx s_Ny] in H.
    change (s_M (compute_nl E s1)) with (s_M s1) in H.
    assert (ED : s_derivs sh = s_derivs s). { destruct (consistent_A s HC) as [_ ->]. destruct (consistent_A sh (set_eps_consistent _ _)) as [_ ->]. reflexivity. }
    unfold same_problem in SP. destruct SP as (EL & Eo & _ & Epl & _ & _ & _ & _ & _ & _ & _ & _ & Edv & _). rewrite Epl, HP in H. injection H as _ ->.
    unfold hyh, derived_fields. change (s_pol sh) with (s_pol s). rewrite HP. cbn [snd]. change (s_M sh) with (s_M s). rewrite EM, Edv, ED, EL, Eo. change (s_omega sh) with (s_omega s). change (s_L0 sh) with (s_L0 s).
    intros k Hk. unfold vscal. f_equal. apply mv_ext_v. exact Ez'. }
  assert (ED : forall k, k < s_Nx s -> rsum (s_Ny s) (interface_density (s_Nx s) (s_Ny s) z hy k) = rsum (s_Ny s) (interface_density (s_Nx s) (s_Ny s) zh hyh k)).
  { intros k Hk. apply rsum_ext. intros j Hj. unfold interface_density.
    rewrite (Ez' (pix (s_Ny s) k j)) by (apply flat_lt; assumption). rewrite (Ehy (pix (s_Ny s) k j)) by (apply flat_lt; assumption).
    rewrite (Ez' (pix (s_Ny s) (prev (s_Nx s) k) j)) by (apply flat_lt; [apply prev_lt|]; assumption). reflexivity. }
  rewrite !ED by (try apply next_lt; assumption).
  exact (C59_interface_power_conserved e sh _ d _ _ _ false i PH He NSh HH Hi HS).
Qed.

(** a Kerr medium with the source on the first column only *)
Definition ex_pow : sim := upd_src (mkNd 3 2 (fun k => if Nat.eqb k 1 then Ci else RtoC 0)) ex_nl.
Example C101_met : reachable ex_env_mkl ex_pow /\ solver_exact ex_env_mkl /\ plain_Ez ex_pow 1 /\ source_free ex_pow 2 /\
  (forall E, nonsingular (s_M ex_pow) (nl_matrix ex_pow E)) /\ 2 < s_Nx ex_pow /\
  (exists s' F conv, solve_fields_nl ex_env_mkl false None "born" 0 2 ex_pow = (s', Ok (F, conv))) /\
  (exists s' F conv, solve_fields_nl ex_env_mkl false None "newton" 0 2 ex_pow = (s', Ok (F, conv))).
Proof.
  destruct ex_nl_facts as (EM & EP & ES & EL & EO & _).
  assert (HS := ex_s_eq "Ez" (or_introl eq_refl)). unfold ex_sim_res, Simulation in HS. rewrite ex_check in HS by auto. injection HS as HS.
  assert (HR : reachable ex_env_mkl ex_pow).
  { destruct ex_nl_reachable as (w & ep & d & np & p & L0 & s0 & l & H1 & H2 & H3 & H4 & H5). exists w, ep, d, np, p, L0, s0, (l ++ [SetSrc (mkNd 3 2 (fun k => if Nat.eqb k 1 then Ci else RtoC 0))]).
    repeat (split; [assumption|]). unfold run_ops in *. rewrite fold_left_app. rewrite <- H5. reflexivity. }
  assert (EN : s_Nx ex_pow = 3 /\ s_Ny ex_pow = 2 /\ s_NPML ex_pow = (0, 0) /\ s_dl ex_pow = 1%R /\ s_xrange ex_pow = (0, INR 3 * 1)%R /\ s_yrange ex_pow = (0, INR 2 * 1)%R).
  { unfold ex_pow, ex_nl, run_ops. cbn [fold_left run_op]. rewrite <- HS. repeat split; reflexivity. }
  destruct EN as (N1 & N2 & N3 & N4 & N5 & N6).
  split; [exact HR|]. split; [apply ex_mkl_exact|]. split.
  { unfold plain_Ez. split; [apply (reachable_consistent _ _ HR)|]. split; [exact EP|]. split; [exact N3|]. rewrite N1, N2, N5, N6.
    split; [unfold dL; cbn [fst snd]; f_equal; simpl; field|]. split; [lra|]. split; [exact N4|]. split; [lia|]. split; [lia|].
    change (s_L0 ex_pow) with (s_L0 ex_nl). change (s_omega ex_pow) with (s_omega ex_nl). rewrite EL, EO. split; [lra|exact ex_omega_pos]. }
  split. { intros j Hj. rewrite N2 in Hj |- *. unfold ex_pow, pix. cbn [upd_src s_src nd_buf]. destruct (Nat.eqb_spec (2 * 2 + j) 1); [lia|reflexivity]. }
  split; [exact ex_nl_nonsingular|]. split; [rewrite N1; lia|].
  destruct (C33_solvers_run_partial ex_env_mkl ex_pow false None 0 2) as (H1 & H2 & _); [change (s_M ex_pow) with (s_M ex_nl); rewrite EM; reflexivity|lia|].
  split; [exact H1|apply H2; [exact EP|reflexivity]].
Qed.
