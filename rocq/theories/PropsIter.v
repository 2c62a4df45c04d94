(** C29-C34: the iterative nonlinear solvers. *)
From Coq Require Import Reals Lra Lia List ZArith Arith Bool String.
From Coquelicot Require Import Coquelicot.
From Verif Require Import Base Linear MCore MSim Spec PCore PSim PEx PropsSolve PropsNl.
Import ListNotations.
Local Open Scope nat_scope.

(** F solves the nonlinear equation of the simulation: A F + w^2 eps0 eps_nl(F) F = i w src *)
Definition nonlinear_solution (s : sim) (F : vec) : Prop := forall k, k < s_M s ->
  (csum (s_M s) (fun c => s_A s k c * F c)
   + RtoC (s_omega s ^ 2 * EPSILON_0 * s_L0 s * s_eps_nl (compute_nl F s) k) * F k
   = nd_buf (s_src s) k * Ci * RtoC (s_omega s))%C.

(** system matrix with the nonlinear permittivity of the field F *)
Definition nl_matrix (s : sim) (F : vec) : mat :=
  mplus (s_A s) (mdiag (fun k => RtoC (s_omega s ^ 2 * EPSILON_0 * s_L0 s * s_eps_nl (compute_nl F s) k))).

Lemma nl_matrix_mv s F X k : k < s_M s -> mv (s_M s) (nl_matrix s F) X k =
  (csum (s_M s) (fun c => s_A s k c * X c) + RtoC (s_omega s ^ 2 * EPSILON_0 * s_L0 s * s_eps_nl (compute_nl F s) k) * X k)%C.
Proof. intro Hk. unfold nl_matrix. rewrite mv_mplus, mv_diag by assumption. reflexivity. Qed.
Lemma nonlinear_solution_solves s F : nonlinear_solution s F <-> solves (s_M s) (nl_matrix s F) F (rhs s).
Proof.
  unfold nonlinear_solution. rewrite solves_mv. unfold veq. split; intros H k Hk; specialize (H k Hk);
    rewrite nl_matrix_mv in * by assumption; exact H.
Qed.
Lemma nl_matrix_ext s F G : veq (s_M s) F G -> meq (s_M s) (nl_matrix s F) (nl_matrix s G).
Proof.
  intros H i j Hi Hj. unfold nl_matrix, mplus, mdiag. f_equal. destruct (Nat.eqb i j); [|reflexivity].
  cbn [compute_nl upd_nlvals s_eps_nl]. rewrite !sum_eps_nl_coef, H by assumption. reflexivity.
Qed.
Lemma used_nl_matrix F s : used_matrix true (compute_nl F s) = nl_matrix s F. Proof. reflexivity. Qed.
Lemma compute_nl_twice F G s : compute_nl F (compute_nl G s) = compute_nl F s. Proof. reflexivity. Qed.
Lemma nl_matrix_compute F G s : nl_matrix (compute_nl G s) F = nl_matrix s F. Proof. reflexivity. Qed.
Lemma nl_matrix_same s s' F : same_problem s s' -> nl_matrix s' F = nl_matrix s F.
Proof.
  unfold same_problem. intros (E1 & E2 & _ & _ & _ & _ & _ & _ & _ & _ & E11 & E12 & _ & _ & E15 & _).
  unfold nl_matrix. cbn [compute_nl upd_nlvals s_eps_nl]. rewrite E1, E2, E11, E12, E15. reflexivity.
Qed.
Lemma same_rhs s s' : same_problem s s' -> rhs s' = rhs s /\ s_M s' = s_M s /\ nd_size (s_src s') = nd_size (s_src s) /\ s_pol s' = s_pol s.
Proof.
  unfold same_problem, rhs, s_M. intros (E1 & E2 & _ & Ep & _ & E6 & E7 & E8 & _). rewrite E2, E6, E7, E8, Ep. auto.
Qed.
Lemma nonlinear_solution_same s s' F : same_problem s s' -> nonlinear_solution s F -> nonlinear_solution s' F.
Proof.
  intros HS. rewrite !nonlinear_solution_solves. rewrite (nl_matrix_same s s' F HS).
  destruct (same_rhs s s' HS) as (-> & -> & _). auto.
Qed.

Lemma solve_nl_ok e av F s : nd_size (s_src s) = s_M s ->
  exists a b X, solve_fields e true av (compute_nl F s) = (compute_nl F s, Ok (a, b, X)) /\
    solver_direct e (s_M s) (nl_matrix s F) (rhs s) (DEFAULT_SOLVER e) = Ok X.
Proof.
  intro Hs. destruct (solver_direct_default_ok e (s_M s) (nl_matrix s F) (rhs s)) as [X HX].
  assert (EA: exists An, s_Anl (compute_nl F s) = Some (s_M s, An) /\ mplus (s_A s) An = nl_matrix s F) by (eexists; split; reflexivity).
  destruct EA as (An & EA & EM). unfold solve_fields. rewrite EA.
  change (s_M (compute_nl F s)) with (s_M s). change (s_src (compute_nl F s)) with (s_src s).
  change (s_A (compute_nl F s)) with (s_A s). change (rhs (compute_nl F s)) with (rhs s).
  rewrite Hs, !Nat.eqb_refl. cbn [negb]. rewrite EM, HX.
  destruct (derived_fields _ _ _ _) as [a b]. exists a, b, X. split; reflexivity.
Qed.
Lemma solve_nl_inv e av F s s' a b X : solve_fields e true av (compute_nl F s) = (s', Ok (a, b, X)) ->
  s' = compute_nl F s /\ nd_size (s_src s) = s_M s /\
  solver_direct e (s_M s) (nl_matrix s F) (rhs s) (DEFAULT_SOLVER e) = Ok X.
Proof.
  intro H. assert (H' := H). apply solve_fields_nl_state in H. apply solve_fields_ok in H' as (H1 & H2 & _).
  rewrite used_nl_matrix in H2. auto.
Qed.

(* ------------------------------------------------------------------ *)
(** ** The Born loop *)
Lemma born_loop_spec e thr n : forall F s s' a b X l,
  born_loop e thr n F s = (s', Ok (Some (a, b, X), l)) ->
  exists Fp l0 c, l = l0 ++ [c] /\ c = convergence (s_M s) X Fp /\ s' = compute_nl Fp s /\
    solve_fields e true false (compute_nl Fp s) = (compute_nl Fp s, Ok (a, b, X)) /\
    List.Forall (fun c => xlt c thr = false) l0 /\ List.length l <= n /\
    (List.length l < n -> xlt c thr = true) /\ (l0 = [] -> Fp = F).
Proof.
  induction n; intros F s s' a b X l H; [discriminate|]. cbn [born_loop] in H.
  destruct (solve_fields e true false (compute_nl F s)) as [s2 [[[a1 b1] X1]|]] eqn:E1; [|discriminate].
  assert (Es := E1). apply solve_nl_inv in Es as (-> & Hs & _). change (s_M (compute_nl F s)) with (s_M s) in H.
  destruct (xlt (convergence (s_M s) X1 F) thr) eqn:Ec.
  - injection H as <- <- <- <- <-. exists F, [], (convergence (s_M s) X1 F). simpl. repeat split; auto; try lia.
  - destruct (born_loop e thr n X1 (compute_nl F s)) as [s3 [[[[[a2 b2] X2]|] l2]|]] eqn:E2; [| |discriminate].
    + injection H as <- <- <- <- <-. apply IHn in E2 as (Fp & l0 & c & -> & -> & -> & ES & HF & HL & Ht & _).
      exists Fp, (convergence (s_M s) X1 F :: l0), (convergence (s_M s) X2 Fp). rewrite compute_nl_twice in *.
      repeat split; auto; simpl in *; try lia; [intros; apply Ht; lia|discriminate].
    + injection H as <- <- <- <- <-. destruct n; [|exfalso].
      * injection E2 as <- <-. exists F, [], (convergence (s_M s) X1 F). simpl. repeat split; auto; try lia.
      * cbn [born_loop] in E2. destruct (solve_fields _ _ _ _) as [s4 [[[a4 b4] X4]|]]; [|discriminate].
        destruct (xlt (convergence (s_M s4) X4 X1) thr); [discriminate E2|]. destruct (born_loop _ _ _ _ _) as [s5 [[[F5|] l5]|x5]]; discriminate E2.
Qed.
Lemma start_field_same e c Es s s' F : start_field e c Es s = (s', Ok F) -> same_problem s s'.
Proof. intro H. apply start_field_step' in H. apply H. Qed.
Lemma born_solve_spec e Es thr n av s s' a b X conv :
  born_solve e Es thr n av s = (s', Ok (a, b, X, conv)) ->
  exists s1 F0 Fp l0 c, start_field e (pol_comp (s_pol s)) Es s = (s1, Ok F0) /\ same_problem s s1 /\
    conv = l0 ++ [c] ++ repeat (Fin 0) (n - S (List.length l0)) /\ c = convergence (s_M s) X Fp /\ s' = compute_nl Fp s1 /\
    solve_fields e true false (compute_nl Fp s1) = (compute_nl Fp s1, Ok (a, b, X)) /\
    List.Forall (fun c => xlt c thr = false) l0 /\ S (List.length l0) <= n /\
    (S (List.length l0) < n -> xlt c thr = true) /\ (l0 = [] -> Fp = F0).
Proof.
  intro H. unfold born_solve in H. destruct (start_field _ _ _ _) as [s1 [F0|]] eqn:E0; [|discriminate].
  destruct (born_loop e thr n F0 s1) as [s2 [[[[[a2 b2] X2]|] l]|]] eqn:E1; try discriminate.
  injection H as <- <- <- <- <-. apply born_loop_spec in E1 as (Fp & l0 & c & -> & -> & -> & ES & HF & HL & Ht & H0).
  assert (HS := start_field_same _ _ _ _ _ _ E0). exists s1, F0, Fp, l0, (convergence (s_M s1) X2 Fp).
  rewrite app_length in HL, Ht. simpl in HL, Ht. replace (List.length l0 + 1) with (S (List.length l0)) in * by lia.
  split; [reflexivity|]. split; [exact HS|]. split.
  { unfold conv_array. rewrite <- app_assoc, app_length. simpl. replace (List.length l0 + 1) with (S (List.length l0)) by lia. reflexivity. }
  destruct (same_rhs _ _ HS) as (_ & EM & _). rewrite EM in *. repeat (split; [solve [auto]|]); auto.
Qed.
Lemma born_loop_runs e thr n F s : nd_size (s_src s) = s_M s ->
  exists s' r l, born_loop e thr n F s = (s', Ok (r, l)) /\ (0 < n -> r <> None).
Proof.
  revert F s; induction n; intros F s Hs; [exists s, None, []; split; [reflexivity|lia]|]. cbn [born_loop].
  destruct (solve_nl_ok e false F s Hs) as (a & b & X & -> & _).
  destruct (xlt _ _); [do 3 eexists; split; [reflexivity|discriminate]|].
  destruct (IHn X (compute_nl F s) Hs) as (s' & r & l & -> & _).
  destruct r as [[[]]|]; do 3 eexists; (split; [reflexivity|discriminate]).
Qed.
Lemma convergence_0 n X F : convergence n X F = Fin 0 -> veq n X F.
Proof.
  unfold convergence, xdiv. destruct (Req_EM_T (nrm n X) 0); [destruct (Req_EM_T _ 0); discriminate|].
  intro H. injection H as H. assert (HZ: nrm n (vminus X F) = 0%R).
  { apply (Rmult_eq_reg_r (/ nrm n X)); [unfold Rdiv in H; lra|]. apply Rinv_neq_0_compat; assumption. }
  intros k Hk. assert (E := nrm_eq0 _ _ HZ k Hk). unfold vminus in E.
  replace (X k) with ((X k - F k) + F k)%C by ring. rewrite E. ring.
Qed.
Lemma convergence_same n X F : veq n X F -> nrm n F <> 0%R -> convergence n X F = Fin 0.
Proof.
  intros H H0. unfold convergence, xdiv. rewrite (nrm_ext n X F H). destruct (Req_EM_T (nrm n F) 0); [contradiction|].
  rewrite (nrm_zero n (vminus X F)); [f_equal; unfold Rdiv; ring|]. intros k Hk. unfold vminus. rewrite H by assumption. ring.
Qed.

(* ------------------------------------------------------------------ *)
(** * C29 *)
Theorem C29_born_result :
  forall e s s' Es thr n av Fx Fy Fz conv, solver_exact e ->
  solve_fields_nl e av Es "born" thr n s = (s', Ok (Fx, Fy, Fz, conv)) ->
  exists Fprev history c, conv = history ++ [c] ++ repeat (Fin 0) (n - S (List.length history)) /\
    c = xdiv (nrm (s_M s) (fun k => Fz k - Fprev k)%C) (nrm (s_M s) Fz) /\
    (S (List.length history) < n -> xlt c thr = true) /\
    (nonsingular (s_M s) (nl_matrix s Fprev) ->
       solves (s_M s) (nl_matrix s Fprev) Fz (rhs s) /\ (c = Fin 0 -> nonlinear_solution s Fz)).
Proof.
  intros e s s' Es thr n av Fx Fy Fz conv He H. unfold solve_fields_nl, run_solver_nl in H.
  rewrite String.eqb_refl in H. destruct (born_solve e Es thr n av s) as [s2 [[[[a b] X] cv]|]] eqn:E; [|discriminate].
  injection H as <- <- <- <- <-. apply born_solve_spec in E as (s1 & F0 & Fp & l0 & c & _ & HS & -> & -> & -> & ES & _ & _ & Ht & _).
  exists Fp, l0, (convergence (s_M s) X Fp). split; [reflexivity|]. split; [reflexivity|]. split; [exact Ht|].
  intro HN. apply solve_nl_inv in ES as (_ & _ & HX). rewrite (nl_matrix_same s s1 Fp HS) in HX.
  destruct (same_rhs _ _ HS) as (ER & EM & _). rewrite ER, EM in HX.
  assert (S1: solves (s_M s) (nl_matrix s Fp) X (rhs s)) by (eapply solver_direct_correct; eassumption).
  split; [exact S1|]. intro Hc. apply convergence_0 in Hc. apply nonlinear_solution_solves.
  eapply solves_ext; [|intros ? _; reflexivity|exact S1]. apply nl_matrix_ext. apply veq_sym; assumption.
Qed.
Theorem C29_born_reproduces_solutions :
  forall e s F thr n av, solver_exact e -> nd_size (s_src s) = s_M s -> 0 < n -> (0 < thr)%R ->
  nonlinear_solution s F -> nonsingular (s_M s) (nl_matrix s F) -> (exists k, k < s_M s /\ F k <> RtoC 0) ->
  exists s' Fx Fy Fz, solve_fields_nl e av (Some F) "born" thr n s = (s', Ok (Fx, Fy, Fz, repeat (Fin 0) n)) /\
    forall k, k < s_M s -> Fz k = F k.
Proof.
  intros e s F thr n av He Hs Hn Ht HF HN [k0 [Hk0 HF0]]. unfold solve_fields_nl, run_solver_nl. rewrite String.eqb_refl.
  unfold born_solve, start_field. destruct n; [lia|]. cbn [born_loop].
  destruct (solve_nl_ok e false F s Hs) as (a & b & X & -> & HX).
  assert (S1: solves (s_M s) (nl_matrix s F) X (rhs s)) by (eapply solver_direct_correct; eassumption).
  apply nonlinear_solution_solves in HF.
  assert (EQ: veq (s_M s) X F) by (eapply solves_unique; eassumption).
  change (s_M (compute_nl F s)) with (s_M s).
  assert (Hnz: nrm (s_M s) F <> 0%R). { intro HZ. apply HF0. apply (nrm_eq0 _ _ HZ k0 Hk0). }
  rewrite convergence_same by assumption. cbn [xlt]. destruct (Rlt_dec 0 thr); [|lra].
  do 4 eexists. split; [unfold conv_array; cbn [List.app List.length Nat.sub]; rewrite Nat.sub_0_r; reflexivity|]. exact EQ.
Qed.

(* ------------------------------------------------------------------ *)
(** ** Newton *)
(** Taylor expansion of the residual with explicit remainder *)
Lemma residual_at s E k : k < s_M s -> nl_residual s E k =
  (csum (s_M s) (fun c => s_A s k c * E c) + RtoC (s_omega s ^ 2 * EPSILON_0 * s_L0 s * s_eps_nl (compute_nl E s) k) * E k
   - nd_buf (s_src s) k * Ci * RtoC (s_omega s))%C.
Proof.
  intro Hk. unfold nl_residual. change (s_M (compute_nl E s)) with (s_M s).
  assert (E1 := nl_matrix_mv s E E k Hk). unfold nl_matrix in E1. cbn [compute_nl upd_nlvals s_Anl s_A s_src s_omega]. unfold spdiags.
  change (s_A (upd_nlvals _ _ _ _ s)) with (s_A s). cbn [compute_nl upd_nlvals s_eps_nl] in E1. rewrite E1. reflexivity.
Qed.
Lemma residual_zero s E : nonlinear_solution s E <-> forall k, k < s_M s -> nl_residual s E k = RtoC 0.
Proof.
  unfold nonlinear_solution. split; intros H k Hk; specialize (H k Hk).
  - rewrite residual_at by assumption. rewrite H. ring.
  - rewrite residual_at in H by assumption.
    match type of H with (?x - ?y)%C = _ => replace x with ((x - y) + y)%C by ring; rewrite H; ring end.
Qed.

(* ------------------------------------------------------------------ *)
(** * C30 *)
Lemma jac11_mv s E h k : k < s_M s -> mv (s_M s) (nl_jac11 s E) h k =
  (csum (s_M s) (fun c => s_A s k c * h c) + RtoC (s_omega s ^ 2 * EPSILON_0 * s_L0 s) *
     (RtoC (s_eps_nl (compute_nl E s) k) * h k + s_dnl_de (compute_nl E s) k * E k * h k))%C.
Proof.
  intro Hk. unfold nl_jac11. rewrite mv_mplus. unfold spdiags. rewrite mv_diag by assumption.
  assert (E1 := nl_matrix_mv s E h k Hk). unfold nl_matrix in E1. cbn [compute_nl upd_nlvals s_Anl s_A s_src s_omega s_L0 s_dnl_de s_eps_nl] in *.
  change (s_M (upd_nlvals _ _ _ _ s)) with (s_M s). change (s_A (upd_nlvals _ _ _ _ s)) with (s_A s).
  unfold spdiags. rewrite E1. rewrite !RtoC_mult. ring.
Qed.
Lemma jac12_mv s E h k : k < s_M s -> mv (s_M s) (nl_jac12 s E) h k =
  (RtoC (s_omega s ^ 2 * EPSILON_0 * s_L0 s) * (Cconj (s_dnl_de (compute_nl E s) k) * E k * h k))%C.
Proof.
  intro Hk. unfold nl_jac12, spdiags. rewrite mv_diag by assumption. rewrite !Cconj_mult, !Cconj_RtoC, !RtoC_mult. 
  cbn [compute_nl upd_nlvals s_omega s_L0]. ring.
Qed.
Theorem C30_jacobian_exact :
  forall s k, s_pol s = PolEz -> nd_size (s_src s) = s_M s -> k < s_M s ->
  exists c : R, forall E h s1 f J11 J12 s2 f' J11' J12',
    nl_eq_and_jac E s = (s1, Ok (f, J11, J12)) -> nl_eq_and_jac (vplus E h) s = (s2, Ok (f', J11', J12')) ->
    (Cmod (f' k - (f k + csum (s_M s) (fun j => J11 k j * h j) + csum (s_M s) (fun j => J12 k j * Cconj (h j))))%C
     <= c * (3 * Cmod (E k) + Cmod (h k)) * Cmod (h k) ^ 2)%R.
Proof.
  intros s k Hp Hs Hk. set (w := (s_omega s ^ 2 * EPSILON_0 * s_L0 s)%R).
  set (q := kerr_coef (s_nl s) k (nd_buf (s_eps s) k)). exists (Rabs (w * q))%R.
  intros E h s1 f J11 J12 s2 f' J11' J12' H1 H2. unfold nl_eq_and_jac in H1, H2. rewrite Hp, Hs, Nat.eqb_refl in H1, H2.
  injection H1 as <- <- <- <-. injection H2 as <- <- <- <-.
  change (csum (s_M s) (fun j => nl_jac11 s E k j * h j)%C) with (mv (s_M s) (nl_jac11 s E) h k).
  change (csum (s_M s) (fun j => nl_jac12 s E k j * Cconj (h j))%C) with (mv (s_M s) (nl_jac12 s E) (vconj h) k).
  rewrite jac11_mv, jac12_mv, !residual_at by assumption. unfold vconj.
  rewrite (csum_ext _ _ (fun c => s_A s k c * E c + s_A s k c * h c)%C) by (intros; unfold vplus; ring). rewrite csum_plus.
  cbn [compute_nl upd_nlvals s_eps_nl s_dnl_de]. rewrite !sum_eps_nl_coef, sum_dnl_de_coef. fold q. fold w. unfold vplus.
  set (ek := E k). set (hk := h k). rewrite Cnorm2_plus.
  replace (Cmod _) with (Cmod (RtoC (w * q) * (RtoC (2 * Re (Cconj ek * hk)%C) * hk + RtoC (Cnorm2 hk) * (ek + hk)))%C).
  2:{ f_equal.
      assert (R2: RtoC (2 * Re (Cconj ek * hk)%C) = (Cconj ek * hk + ek * Cconj hk)%C) by (apply C_ext; autorewrite with reim; ring).
      rewrite R2, !Cconj_mult, !Cconj_RtoC, Cconj_invol. rewrite !RtoC_mult, !RtoC_plus.
      rewrite R2. rewrite <- !Cmult_conj_r. ring. }
  rewrite Cmod_mult, Cmod_R. rewrite Rmult_assoc. apply Rmult_le_compat_l; [apply Rabs_pos|].
  eapply Rle_trans; [apply Cmod_triangle|]. rewrite !Cmod_mult, !Cmod_R.
  assert (A1: (Rabs (2 * Re (Cconj ek * hk)%C) <= 2 * (Cmod ek * Cmod hk))%R).
  { rewrite Rabs_mult, Rabs_pos_eq by lra. apply Rmult_le_compat_l; [lra|]. eapply Rle_trans; [apply Cmod_Re_le|].
    rewrite Cmod_mult, Cmod_conj. lra. }
  assert (A2: (Rabs (Cnorm2 hk) = Cmod hk ^ 2)%R) by (rewrite Rabs_pos_eq by apply Cnorm2_ge0; symmetry; apply Cmod2).
  rewrite A2. assert (A3 := Cmod_triangle ek hk). assert (P1 := Cmod_ge_0 ek). assert (P2 := Cmod_ge_0 hk).
  assert (A4: (Rabs (2 * Re (Cconj ek * hk)%C) * Cmod hk <= 2 * (Cmod ek * Cmod hk) * Cmod hk)%R) by (apply Rmult_le_compat_r; lra).
  assert (A5: (Cmod hk ^ 2 * Cmod (ek + hk)%C <= Cmod hk ^ 2 * (Cmod ek + Cmod hk))%R) by (apply Rmult_le_compat_l; [apply pow2_ge_0|lra]).
  nra.
Qed.
(** one Newton step does not move the field exactly when the residual vanishes *)
Theorem C30_newton_step_fixed_points :
  forall e s E s1 f J11 J12 d sv, real_solver_exact e ->
  nl_eq_and_jac E s = (s1, Ok (f, J11, J12)) -> widely_injective (s_M s) J11 J12 ->
  solver_complex2real e (s_M s) J11 J12 f sv = Ok d ->
  (veq (s_M s) (vminus E d) E <-> nonlinear_solution s E).
Proof.
  intros e s E s1 f J11 J12 d sv He H HI Hd.
  assert (HC := C28_complex2real_solves_widely_linear_system e _ _ _ _ _ He HI sv Hd).
  unfold nl_eq_and_jac in H. destruct (s_pol s); [|discriminate]. destruct (Nat.eqb _ _); [|discriminate].
  injection H as <- <- <- <-.
  rewrite residual_zero. split; intro HE.
  - assert (D0: veq (s_M s) (fun _ => RtoC 0) d).
    { intros k Hk. assert (Q := HE k Hk). unfold vminus in Q. replace (d k) with (E k - (E k - d k))%C by ring. rewrite Q. ring. }
    apply HC in D0. intros k Hk. specialize (D0 k Hk). rewrite <- D0.
    rewrite !csum_0; [ring| |]; intros; [rewrite Cconj_RtoC|]; ring.
  - assert (D0: veq (s_M s) (fun _ => RtoC 0) d).
    { apply HC. intros k Hk. rewrite HE by assumption. rewrite !csum_0; [ring| |]; intros; [rewrite Cconj_RtoC|]; ring. }
    intros k Hk. unfold vminus. rewrite <- (D0 k Hk). ring.
Qed.

Lemma newton_loop_spec e thr n : forall E s s' X l,
  newton_loop e thr n E s = (s', Ok (X, l)) -> n = 0 /\ l = [] /\ X = E /\ s' = s \/
  exists Ep d l0 c, l = l0 ++ [c] /\ c = convergence (s_M s) X Ep /\ s' = compute_nl Ep s /\ X = vminus Ep d /\
    nl_eq_and_jac Ep s = (compute_nl Ep s, Ok (nl_residual s Ep, nl_jac11 s Ep, nl_jac12 s Ep)) /\
    solver_complex2real e (s_M s) (nl_jac11 s Ep) (nl_jac12 s Ep) (nl_residual s Ep) (DEFAULT_SOLVER e) = Ok d /\
    List.Forall (fun c => xlt c thr = false) l0 /\ List.length l <= n /\
    (List.length l < n -> xlt c thr = true).
Proof.
  induction n; intros E s s' X l H.
  - left. injection H as <- <- <-. auto.
  - right. cbn [newton_loop] in H. destruct (nl_eq_and_jac E s) as [s1 [[[f J1] J2]|]] eqn:E1; [|discriminate].
    assert (Es := E1). unfold nl_eq_and_jac in Es. destruct (s_pol s); [|discriminate]. destruct (Nat.eqb _ _); [|discriminate].
    injection Es as <- <- <- <-. change (s_M (compute_nl E s)) with (s_M s) in H.
    destruct (solver_complex2real _ _ _ _ _ _) as [d|] eqn:Ed; [|discriminate].
    destruct (xlt _ thr) eqn:Ec.
    + injection H as <- <- <-. exists E, d, [], (convergence (s_M s) (vminus E d) E). simpl. repeat split; auto; try lia.
    + destruct (newton_loop e thr n (vminus E d) (compute_nl E s)) as [s2 [[X2 l2]|]] eqn:E2; [|discriminate].
      injection H as <- <- <-. apply IHn in E2 as [(-> & -> & -> & ->)|(Ep & d2 & l0 & c & -> & -> & -> & -> & EJ & Ed2 & HF & HL & Ht)].
      * exists E, d, [], (convergence (s_M s) (vminus E d) E). simpl. repeat split; auto; try lia.
      * exists Ep, d2, (convergence (s_M s) (vminus E d) E :: l0), (convergence (s_M s) (vminus Ep d2) Ep).
        rewrite compute_nl_twice in *.
        change (nl_residual (compute_nl E s) Ep) with (nl_residual s Ep) in *.
        change (nl_jac11 (compute_nl E s) Ep) with (nl_jac11 s Ep) in *.
        change (nl_jac12 (compute_nl E s) Ep) with (nl_jac12 s Ep) in *.
        change (s_M (compute_nl E s)) with (s_M s) in *.
        assert (EJ': nl_eq_and_jac Ep s = (compute_nl Ep s, Ok (nl_residual s Ep, nl_jac11 s Ep, nl_jac12 s Ep))).
        { unfold nl_eq_and_jac in *. change (s_pol (compute_nl E s)) with (s_pol s) in EJ. destruct (s_pol s); [|discriminate].
          change (s_src (compute_nl E s)) with (s_src s) in EJ. change (s_M (compute_nl E s)) with (s_M s) in EJ.
          destruct (Nat.eqb _ _); [reflexivity|discriminate]. }
        repeat split; auto; simpl in *; try lia. intros; apply Ht; lia.
Qed.
Lemma newton_solve_spec e Es thr n av s s' a b X conv :
  newton_solve e Es thr n av s = (s', Ok (a, b, X, conv)) ->
  exists s1 Ep d l0 c, s_pol s = PolEz /\ 0 < n /\ same_problem s s1 /\
    let En := vminus Ep d in
    conv = l0 ++ [c] ++ repeat (Fin 0) (n - S (List.length l0)) /\ c = convergence (s_M s) En Ep /\ s' = compute_nl En s1 /\
    nl_eq_and_jac Ep s1 = (compute_nl Ep s1, Ok (nl_residual s1 Ep, nl_jac11 s1 Ep, nl_jac12 s1 Ep)) /\
    solver_complex2real e (s_M s) (nl_jac11 s1 Ep) (nl_jac12 s1 Ep) (nl_residual s1 Ep) (DEFAULT_SOLVER e) = Ok d /\
    solve_fields e true false (compute_nl En s1) = (compute_nl En s1, Ok (a, b, X)) /\
    List.Forall (fun c => xlt c thr = false) l0 /\ S (List.length l0) <= n /\
    (S (List.length l0) < n -> xlt c thr = true).
Proof.
  intro H. unfold newton_solve in H. destruct (s_pol s); [|discriminate].
  destruct (start_field _ _ _ _) as [s1 [E0|]] eqn:E1; [|discriminate].
  destruct (newton_loop e thr n E0 s1) as [s2 [[E l]|]] eqn:E2; [|discriminate].
  destruct (solve_fields e true false (compute_nl E s2)) as [s4 [F|]] eqn:E3; [|discriminate].
  destruct n; [discriminate|]. injection H as <- -> <-.
  assert (HS := start_field_same _ _ _ _ _ _ E1). destruct (same_rhs _ _ HS) as (_ & EM & _).
  apply newton_loop_spec in E2 as [(Hn & _)|(Ep & d & l0 & c & -> & -> & -> & -> & EJ & Ed & HF & HL & Ht)]; [lia|].
  rewrite compute_nl_twice in E3. assert (ES := E3). apply solve_nl_inv in ES as (-> & _).
  exists s1, Ep, d, l0, (convergence (s_M s1) (vminus Ep d) Ep).
  rewrite app_length in HL, Ht. simpl List.length in HL, Ht. replace (List.length l0 + 1) with (S (List.length l0)) in * by lia.
  rewrite EM in *. split; [reflexivity|]. split; [lia|]. split; [exact HS|]. cbv zeta. split.
  { unfold conv_array. rewrite <- app_assoc, app_length. cbn [List.length]. replace (List.length l0 + 1) with (S (List.length l0)) by lia. reflexivity. }
  repeat split; auto.
Qed.
Lemma jac_same s s' E : same_problem s s' -> nl_jac11 s' E = nl_jac11 s E /\ nl_jac12 s' E = nl_jac12 s E /\ nl_residual s' E = nl_residual s E.
Proof.
  unfold same_problem. intros (E1 & E2 & _ & _ & _ & E6 & E7 & E8 & _ & _ & E11 & E12 & _ & _ & E15 & _).
  unfold nl_jac11, nl_jac12, nl_residual, s_M. cbn [compute_nl upd_nlvals s_eps_nl s_dnl_de s_Anl s_A s_omega s_L0 s_src s_Nx s_Ny].
  rewrite E1, E2, E6, E7, E8, E11, E12, E15. auto.
Qed.
(** a converged Newton run (recorded change 0) returns a solution of the nonlinear equation *)
Theorem C30_newton_result :
  forall e s s' Es thr n av Fx Fy Fz conv, solver_exact e -> real_solver_exact e ->
  solve_fields_nl e av Es "newton" thr n s = (s', Ok (Fx, Fy, Fz, conv)) ->
  exists Eprev E history c, conv = history ++ [c] ++ repeat (Fin 0) (n - S (List.length history)) /\
    c = xdiv (nrm (s_M s) (fun k => E k - Eprev k)%C) (nrm (s_M s) E) /\
    (S (List.length history) < n -> xlt c thr = true) /\
    (widely_injective (s_M s) (nl_jac11 s Eprev) (nl_jac12 s Eprev) ->
       widely_solves (s_M s) (nl_jac11 s Eprev) (nl_jac12 s Eprev) (fun k => Eprev k - E k)%C (nl_residual s Eprev) /\
       (nonsingular (s_M s) (nl_matrix s E) ->
          solves (s_M s) (nl_matrix s E) Fz (rhs s) /\
          (c = Fin 0 -> nonlinear_solution s Fz))).
Proof.
  intros e s s' Es thr n av Fx Fy Fz conv He Hr H. unfold solve_fields_nl, run_solver_nl in H.
  change (String.eqb "newton" "born") with false in H. change (String.eqb "newton" "newton") with true in H. cbv iota in H.
  destruct (newton_solve e Es thr n av s) as [s2 [[[[a b] X] cv]|]] eqn:E; [|discriminate].
  injection H as <- <- <- <- <-. apply newton_solve_spec in E as (s1 & Ep & d & l0 & c & Hp & Hn & HS & E).
  cbv zeta in E. destruct E as (-> & -> & -> & EJ & Ed & ES & HF & HL & Ht).
  exists Ep, (vminus Ep d), l0, (convergence (s_M s) (vminus Ep d) Ep). split; [reflexivity|]. split; [reflexivity|]. split; [exact Ht|].
  intro HI. destruct (jac_same s s1 Ep HS) as (J1 & J2 & J3). rewrite J1, J2, J3 in Ed.
  assert (HC := C28_complex2real_solves_widely_linear_system e _ _ _ _ _ Hr HI _ Ed).
  split.
  { apply HC. intros k Hk. unfold vminus. ring. }
  intro HN. apply solve_nl_inv in ES as (_ & _ & HX). rewrite (nl_matrix_same s s1 _ HS) in HX.
  destruct (same_rhs _ _ HS) as (ER & EM & _). rewrite ER, EM in HX.
  assert (S1: solves (s_M s) (nl_matrix s (vminus Ep d)) X (rhs s)) by (eapply solver_direct_correct; eassumption).
  split; [exact S1|]. intro Hc. apply convergence_0 in Hc.
  assert (D0: veq (s_M s) (fun _ => RtoC 0) d).
  { intros k Hk. assert (Q := Hc k Hk). unfold vminus in Q. replace (d k) with (Ep k - (Ep k - d k))%C by ring. rewrite Q. ring. }
  apply HC in D0. assert (R0: nonlinear_solution s Ep).
  { apply residual_zero. intros k Hk. rewrite <- (D0 k Hk). rewrite !csum_0; [ring| |]; intros; [rewrite Cconj_RtoC|]; ring. }
  apply nonlinear_solution_solves in R0.
  assert (M1: meq (s_M s) (nl_matrix s (vminus Ep d)) (nl_matrix s Ep)) by (apply nl_matrix_ext; assumption).
  assert (EQ: veq (s_M s) X Ep).
  { apply (solves_unique _ (nl_matrix s (vminus Ep d)) _ _ (rhs s)); [assumption|assumption|].
    eapply solves_ext; [apply meq_sym; exact M1|intros ? _; reflexivity|exact R0]. }
  apply nonlinear_solution_solves. eapply solves_ext; [|intros ? _; reflexivity|exact S1].
  apply nl_matrix_ext. intros k Hk. rewrite (Hc k Hk), (EQ k Hk). reflexivity.
Qed.
(** a solution is reproduced in one iteration, whatever the environment *)
Theorem C30_newton_reproduces_solutions :
  forall e s F thr n av, solver_exact e -> s_pol s = PolEz -> nd_size (s_src s) = s_M s -> 0 < n -> (0 < thr)%R ->
  nonlinear_solution s F -> nonsingular (s_M s) (nl_matrix s F) -> (exists k, k < s_M s /\ F k <> RtoC 0) ->
  exists s' Fx Fy Fz, solve_fields_nl e av (Some F) "newton" thr n s = (s', Ok (Fx, Fy, Fz, repeat (Fin 0) n)) /\
    forall k, k < s_M s -> Fz k = F k.
Proof.
  intros e s F thr n av He Hp Hs Hn Ht HF HN [k0 [Hk0 HF0]]. unfold solve_fields_nl, run_solver_nl.
  change (String.eqb "newton" "born") with false. change (String.eqb "newton" "newton") with true. cbv iota.
  unfold newton_solve, start_field. rewrite Hp. destruct n; [lia|]. cbn [newton_loop].
  unfold nl_eq_and_jac. rewrite Hp, Hs, Nat.eqb_refl. change (s_M (compute_nl F s)) with (s_M s).
  unfold solver_complex2real. rewrite (proj2 (all_zero_spec (s_M s) (nl_residual s F))) by (apply residual_zero; assumption).
  assert (EQ0: veq (s_M s) (vminus F vzero) F) by (intros k Hk; unfold vminus, vzero; ring).
  assert (Hnz: nrm (s_M s) F <> 0%R). { intro HZ. apply HF0. apply (nrm_eq0 _ _ HZ k0 Hk0). }
  rewrite (convergence_same _ _ _ EQ0 Hnz). cbn [xlt]. destruct (Rlt_dec 0 thr); [|lra].
  rewrite compute_nl_twice. destruct (solve_nl_ok e false (vminus F vzero) s Hs) as (a & b & X & -> & HX).
  assert (M1 := nl_matrix_ext s _ _ EQ0).
  assert (S1: solves (s_M s) (nl_matrix s (vminus F vzero)) X (rhs s)).
  { eapply solver_direct_correct; [eassumption| |eassumption]. eapply nonsingular_ext; [apply meq_sym; exact M1|exact HN]. }
  apply nonlinear_solution_solves in HF.
  assert (EQ: veq (s_M s) X F).
  { apply (solves_unique _ (nl_matrix s F) _ _ (rhs s)); [assumption| |assumption].
    eapply solves_ext; [exact M1|intros ? _; reflexivity|exact S1]. }
  do 4 eexists. split; [unfold conv_array; cbn [List.app List.length Nat.sub]; rewrite Nat.sub_0_r; reflexivity|]. exact EQ.
Qed.

(* ------------------------------------------------------------------ *)
(** * C31 *)
(** [m] iterations were made: the record is m changes followed by zeros *)
Definition convergence_record (thr : R) (n : nat) (conv : list xr) : Prop :=
  List.length conv = n /\
  exists m, 0 < m <= n /\
    (forall i, i < m - 1 -> xlt (List.nth i conv NaN) thr = false) /\
    (m < n -> xlt (List.nth (m - 1) conv NaN) thr = true) /\
    (forall i, m <= i < n -> List.nth i conv NaN = Fin 0).
Lemma record_of_spec thr n conv (l0 : list xr) c : conv = l0 ++ [c] ++ repeat (Fin 0) (n - S (List.length l0)) ->
  List.Forall (fun c => xlt c thr = false) l0 -> S (List.length l0) <= n ->
  (S (List.length l0) < n -> xlt c thr = true) -> convergence_record thr n conv.
Proof.
  intros -> HF HL Ht. split; [rewrite !app_length, repeat_length; simpl; lia|].
  exists (S (List.length l0)). split; [lia|]. replace (S (List.length l0) - 1) with (List.length l0) by lia. split; [|split].
  - intros i Hi. rewrite app_nth1 by assumption. rewrite List.Forall_forall in HF. apply HF. apply nth_In; assumption.
  - intro Hm. rewrite app_nth2 by lia. rewrite Nat.sub_diag. simpl. apply Ht; assumption.
  - intros i Hi. rewrite app_nth2 by lia. rewrite app_nth2 by (simpl; lia).
    apply (repeat_spec (n - S (List.length l0)) (Fin 0)). apply nth_In. rewrite repeat_length. simpl; lia.
Qed.
Theorem C31_convergence_record :
  forall e s s' av Es name thr n F conv, name = "born"%string \/ name = "newton"%string ->
  solve_fields_nl e av Es name thr n s = (s', Ok (F, conv)) -> convergence_record thr n conv.
Proof.
  intros e s s' av Es name thr n F conv Hname H. unfold solve_fields_nl, run_solver_nl in H.
  destruct Hname as [-> | ->].
  - rewrite String.eqb_refl in H. destruct (born_solve e Es thr n av s) as [s2 [[[[a b] X] cv]|]] eqn:E; [|discriminate].
    injection H as <- <- <-. apply born_solve_spec in E as (s1 & F0 & Fp & l0 & c & _ & _ & E & _ & _ & _ & HF & HL & Ht & _).
    eapply record_of_spec; eassumption.
  - change (String.eqb "newton" "born") with false in H. change (String.eqb "newton" "newton") with true in H. cbv iota in H.
    destruct (newton_solve e Es thr n av s) as [s2 [[[[a b] X] cv]|]] eqn:E; [|discriminate].
    injection H as <- <- <-. apply newton_solve_spec in E as (s1 & Ep & d & l0 & c & _ & _ & _ & E). cbv zeta in E.
    destruct E as (E & _ & _ & _ & _ & _ & HF & HL & Ht). eapply record_of_spec; eassumption.
Qed.
Lemma hybrid_unfold e av Es thr n : run_solver_nl e av Es "hybrid" thr n = fun s =>
    match born_solve e Es thr 20 av s with
    | (s1, Raise x) => (s1, Raise x)
    | (s1, Ok (F, conv)) =>
        match last_conv conv with
        | Raise x => (s1, Raise x)
        | Ok c => if xgt c (1 / 10 ^ 10) then newton_solve e (Some (snd F)) thr 20 av s1 else (s1, Ok (F, conv))
        end
    end.
Proof. reflexivity. Qed.
(** the default solver returns a record of 20 entries whatever max_num_iter *)
Theorem C31_hybrid_record_refuted :
  forall e s s' av Es thr n F conv, solve_fields_nl e av Es "hybrid" thr n s = (s', Ok (F, conv)) ->
  convergence_record thr 20 conv.
Proof.
  intros e s s' av Es thr n F conv H. unfold solve_fields_nl in H. rewrite hybrid_unfold in H.
  destruct (born_solve e Es thr 20 av s) as [s2 [[[[a b] X] cv]|]] eqn:E; [|discriminate].
  destruct (last_conv cv) as [c|]; [|discriminate]. destruct (xgt c _).
  - destruct (newton_solve _ _ _ _ _ _) as [s3 [[[[a3 b3] X3] cv3]|]] eqn:E3; [|discriminate].
    injection H as <- <- <-. apply newton_solve_spec in E3 as (s1 & Ep & d & l0 & c3 & _ & _ & _ & E3). cbv zeta in E3.
    destruct E3 as (E3 & _ & _ & _ & _ & _ & HF & HL & Ht). eapply record_of_spec; eassumption.
  - injection H as <- <- <-. apply born_solve_spec in E as (s1 & F0 & Fp & l0 & c0 & _ & _ & E & _ & _ & _ & HF & HL & Ht & _).
    eapply record_of_spec; eassumption.
Qed.

(* ------------------------------------------------------------------ *)
(** * C32 *)
Lemma last_conv_app l c : last_conv (l ++ [c]) = Ok c.
Proof. unfold last_conv. rewrite rev_app_distr. reflexivity. Qed.
Lemma last_conv_nth l : l <> [] -> last_conv l = Ok (List.nth (List.length l - 1) l NaN).
Proof.
  intro H. destruct (exists_last H) as (l' & c & ->). rewrite last_conv_app, app_length. simpl.
  rewrite app_nth2 by lia. replace (List.length l' + 1 - 1 - List.length l') with 0 by lia. reflexivity.
Qed.
(** The default solver runs 20 Born iterations, then Newton exactly when the 20th entry of
    the record exceeds 1e-10; with the default threshold this is when Born did not converge
    (provided the last change is a number different from the threshold). *)
Theorem C32_hybrid_falls_back_partial :
  forall e s av Es n s1 F conv,
  let thr := (1 / 10 ^ 10)%R in
  born_solve e Es thr 20 av s = (s1, Ok (F, conv)) ->
  List.nth 19 conv NaN <> NaN -> List.nth 19 conv NaN <> Fin thr ->
  ((exists i, i < 20 /\ xlt (List.nth i conv NaN) thr = true) ->
     run_solver_nl e av Es "hybrid" thr n s = (s1, Ok (F, conv))) /\
  (~ (exists i, i < 20 /\ xlt (List.nth i conv NaN) thr = true) ->
     run_solver_nl e av Es "hybrid" thr n s = newton_solve e (Some (snd F)) thr 20 av s1).
Proof.
  intros e s av Es n s1 F conv thr HB HN HT. rewrite hybrid_unfold. fold thr. rewrite HB.
  assert (HR: convergence_record thr 20 conv).
  { destruct F as [[a b] X]. apply born_solve_spec in HB as (s1' & F0 & Fp & l0 & c0 & _ & _ & E & _ & _ & _ & HF & HL & Ht & _).
    eapply record_of_spec; eassumption. }
  destruct HR as [HL [m [Hm [H1 [H2 H3]]]]].
  rewrite last_conv_nth by (destruct conv; discriminate). rewrite HL. change (20 - 1) with 19.
  assert (Hthr: (0 < thr)%R) by (unfold thr; apply Rdiv_lt_0_compat; [lra|apply pow_lt; lra]).
  assert (DEC: xgt (List.nth 19 conv NaN) thr = negb (xlt (List.nth 19 conv NaN) thr)).
  { destruct (List.nth 19 conv NaN) as [r| |]; [|reflexivity|congruence]. cbn [xgt xlt].
    destruct (Rlt_dec thr r), (Rlt_dec r thr); try reflexivity; try lra. exfalso; apply HT. f_equal. lra. }
  rewrite DEC. split.
  - intros (i & Hi & Hx).
    assert (xlt (List.nth 19 conv NaN) thr = true) as ->; [|reflexivity].
    destruct (Nat.eq_dec m 20) as [->|Hm20].
    + destruct (Nat.eq_dec i 19) as [->|]; [assumption|]. rewrite H1 in Hx by lia. discriminate.
    + rewrite H3 by lia. cbn [xlt]. destruct (Rlt_dec 0 thr); [reflexivity|lra].
  - intro Hx. assert (xlt (List.nth 19 conv NaN) thr = false) as ->; [|reflexivity].
    destruct (xlt (List.nth 19 conv NaN) thr) eqn:Q; [|reflexivity]. exfalso. apply Hx. exists 19. split; [lia|exact Q].
Qed.
(** max_num_iter is ignored *)
Theorem C32_max_num_iter_refuted :
  forall e s av Es thr n n', solve_fields_nl e av Es "hybrid" thr n s = solve_fields_nl e av Es "hybrid" thr n' s.
Proof. reflexivity. Qed.
(** With another threshold the decision does not follow it: Born may have converged at its 20th
    iteration and Newton still runs, or may have failed to reach a threshold below 1e-10 and
    Newton does not run. *)
Theorem C32_other_threshold_refuted :
  forall e s av Es thr n s1 F conv r, born_solve e Es thr 20 av s = (s1, Ok (F, conv)) -> List.nth 19 conv NaN = Fin r ->
  ((1 / 10 ^ 10 < r)%R -> run_solver_nl e av Es "hybrid" thr n s = newton_solve e (Some (snd F)) thr 20 av s1) /\
  ((r <= 1 / 10 ^ 10)%R -> run_solver_nl e av Es "hybrid" thr n s = (s1, Ok (F, conv))).
Proof.
  intros e s av Es thr n s1 F conv r HB HN. rewrite hybrid_unfold, HB.
  assert (HL: List.length conv = 20).
  { destruct F as [[a b] X]. apply born_solve_spec in HB as (s1' & F0 & Fp & l0 & c0 & _ & _ & E & _ & _ & _ & HF & HL & Ht & _).
    eapply record_of_spec; eassumption. }
  rewrite last_conv_nth by (destruct conv; discriminate). rewrite HL. change (20 - 1) with 19. rewrite HN. cbn [xgt].
  destruct (Rlt_dec _ _); split; intro; try reflexivity; lra.
Qed.

(* ------------------------------------------------------------------ *)
(** * C33 *)
Lemma start_field_runs e c Es s : nd_size (s_src s) = s_M s -> exists s1 F, start_field e c Es s = (s1, Ok F).
Proof.
  intro Hs. unfold start_field. destruct Es; [do 2 eexists; reflexivity|]. destruct (s_fields s c); [do 2 eexists; reflexivity|].
  destruct (solve_fields_lin e false s Hs) as (X & _ & H). cbv zeta in H. rewrite H. do 2 eexists; reflexivity.
Qed.
Lemma born_solve_runs e Es thr n av s : nd_size (s_src s) = s_M s -> 0 < n ->
  exists s1 F conv, born_solve e Es thr n av s = (s1, Ok (F, conv)) /\ same_problem s s1.
Proof.
  intros Hs Hn. unfold born_solve. destruct (start_field_runs e (pol_comp (s_pol s)) Es s Hs) as (s1 & F0 & E0). rewrite E0.
  assert (HS := start_field_same _ _ _ _ _ _ E0). destruct (same_rhs _ _ HS) as (_ & EM & ES & _).
  destruct (born_loop_runs e thr n F0 s1) as (s2 & r & l & E2 & Hr); [congruence|]. rewrite E2.
  destruct r as [F|]; [|exfalso; apply Hr; auto]. do 3 eexists. split; [reflexivity|].
  apply born_loop_keeps in E2. eapply same_trans; [exact HS|apply E2].
Qed.
Lemma newton_loop_runs e thr n : e_pardiso e = true -> forall E s, s_pol s = PolEz -> nd_size (s_src s) = s_M s ->
  exists s' E' l, newton_loop e thr n E s = (s', Ok (E', l)).
Proof.
  intro He. induction n; intros E s Hp Hs; [do 3 eexists; reflexivity|]. cbn [newton_loop]. unfold nl_eq_and_jac.
  rewrite Hp, Hs, Nat.eqb_refl. unfold solver_complex2real, DEFAULT_SOLVER. rewrite He.
  change (s_M (compute_nl E s)) with (s_M s).
  destruct (all_zero _ _); (destruct (xlt _ _); [do 3 eexists; reflexivity|]);
    match goal with |- context [newton_loop e thr n ?E1 ?s1] => destruct (IHn E1 s1 Hp Hs) as (s' & E' & l & ->) end;
    do 3 eexists; reflexivity.
Qed.
Lemma newton_solve_runs e Es thr n av s : e_pardiso e = true -> s_pol s = PolEz -> nd_size (s_src s) = s_M s -> 0 < n ->
  exists s1 F conv, newton_solve e Es thr n av s = (s1, Ok (F, conv)).
Proof.
  intros He Hp Hs Hn. unfold newton_solve. rewrite Hp. destruct (start_field_runs e Ez Es s Hs) as (s1 & F0 & E0). rewrite E0.
  assert (HS := start_field_same _ _ _ _ _ _ E0). destruct (same_rhs _ _ HS) as (_ & EM & ES & EP).
  destruct (newton_loop_runs e thr n He F0 s1) as (s2 & E' & l & E2); [congruence|congruence|]. rewrite E2.
  apply newton_loop_keeps in E2 as [E2 _]. destruct (same_rhs _ _ E2) as (_ & EM2 & ES2 & _).
  destruct (solve_nl_ok e false E' s2) as (a & b & X & -> & _); [congruence|]. destruct n; [lia|]. do 3 eexists; reflexivity.
Qed.
Theorem C33_solvers_run_partial :
  forall e s av Es thr n, nd_size (s_src s) = s_M s -> 0 < n ->
  (exists s' F conv, solve_fields_nl e av Es "born" thr n s = (s', Ok (F, conv))) /\
  (s_pol s = PolEz -> e_pardiso e = true ->
     (exists s' F conv, solve_fields_nl e av Es "newton" thr n s = (s', Ok (F, conv))) /\
     (exists s' F conv, solve_fields_nl e av Es "hybrid" thr n s = (s', Ok (F, conv)))) /\
  (s_pol s = PolEz -> exists s' F conv, solve_fields_nl e av Es "krylov" thr n s = (s', Ok (F, conv))).
Proof.
  intros e s av Es thr n Hs Hn. split; [|split].
  - unfold solve_fields_nl, run_solver_nl. rewrite String.eqb_refl.
    destruct (born_solve_runs e Es thr n av s Hs Hn) as (s1 & F & conv & -> & _). do 3 eexists; reflexivity.
  - intros Hp He. split.
    + unfold solve_fields_nl, run_solver_nl. change (String.eqb "newton" "born") with false. change (String.eqb "newton" "newton") with true. cbv iota.
      destruct (newton_solve_runs e Es thr n av s He Hp Hs Hn) as (s1 & F & conv & ->). do 3 eexists; reflexivity.
    + unfold solve_fields_nl. rewrite hybrid_unfold.
      destruct (born_solve_runs e Es thr 20 av s Hs ltac:(lia)) as (s1 & F & conv & EB & HS). rewrite EB.
      assert (HL: List.length conv = 20).
      { destruct F as [[a b] X]. apply born_solve_spec in EB as (s1' & F0 & Fp & l0 & c0 & _ & _ & E & _ & _ & _ & HF & HL & Ht & _).
        eapply record_of_spec; eassumption. }
      rewrite last_conv_nth by (destruct conv; discriminate). destruct (xgt _ _); [|do 3 eexists; reflexivity].
      destruct (same_rhs _ _ HS) as (_ & EM & ES & EP).
      destruct (newton_solve_runs e (Some (snd F)) thr 20 av s1 He) as (s2 & F2 & conv2 & ->); [congruence|congruence|lia|].
      do 3 eexists; reflexivity.
  - intro Hp. unfold solve_fields_nl, run_solver_nl. change (String.eqb "krylov" "born") with false. change (String.eqb "krylov" "newton") with false.
    change (String.eqb "krylov" "LM") with false. change (String.eqb "krylov" "krylov") with true. cbv iota.
    unfold newton_krylov_solve. destruct (start_field_runs e Ez Es s Hs) as (s1 & F0 & E0). rewrite E0.
    assert (HS := start_field_same _ _ _ _ _ _ E0). destruct (same_rhs _ _ HS) as (_ & EM & ES & EP).
    unfold nl_eq_and_jac. rewrite EP, Hp, ES, EM, Hs, Nat.eqb_refl. destruct (e_krylov _ _ _). do 3 eexists; reflexivity.
Qed.
Theorem C33_unknown_solver_refused :
  forall e s av Es thr n name, ~ List.In name ["born"; "newton"; "LM"; "krylov"; "hybrid"]%string ->
  solve_fields_nl e av Es name thr n s = (s, Raise AssertionError).
Proof.
  intros e s av Es thr n name H. unfold solve_fields_nl, run_solver_nl.
  destruct (String.eqb_spec name "born"); [exfalso; apply H; subst; simpl; tauto|].
  destruct (String.eqb_spec name "newton"); [exfalso; apply H; subst; simpl; tauto|].
  destruct (String.eqb_spec name "LM"); [exfalso; apply H; subst; simpl; tauto|].
  destruct (String.eqb_spec name "krylov"); [exfalso; apply H; subst; simpl; tauto|].
  destruct (String.eqb_spec name "hybrid"); [exfalso; apply H; subst; simpl; tauto|]. reflexivity.
Qed.
(** LM always fails; Newton and krylov always fail for Hz; zero iterations always fail *)
Theorem C33_always_fail_refuted :
  forall e s av Es thr n,
  solve_fields_nl e av Es "LM" thr n s = (s, Raise NameError) /\
  (s_pol s = PolHz -> solve_fields_nl e av Es "newton" thr n s = (s, Raise NameError)) /\
  (s_pol s = PolHz -> exists x, snd (solve_fields_nl e av Es "krylov" thr n s) = Raise x) /\
  (nd_size (s_src s) = s_M s -> snd (solve_fields_nl e av Es "born" thr 0 s) = Raise UnboundLocalError).
Proof.
  intros e s av Es thr n. split; [reflexivity|]. split; [|split].
  - intro Hp. unfold solve_fields_nl, run_solver_nl. change (String.eqb "newton" "born") with false. change (String.eqb "newton" "newton") with true. cbv iota.
    unfold newton_solve. rewrite Hp. reflexivity.
  - intro Hp. unfold solve_fields_nl, run_solver_nl. change (String.eqb "krylov" "born") with false. change (String.eqb "krylov" "newton") with false.
    change (String.eqb "krylov" "LM") with false. change (String.eqb "krylov" "krylov") with true. cbv iota.
    unfold newton_krylov_solve. destruct (start_field e Ez Es s) as [s1 [F|x]] eqn:E0; [|exists x; reflexivity].
    assert (HS := start_field_same _ _ _ _ _ _ E0). destruct (same_rhs _ _ HS) as (_ & EM & ES & EP).
    unfold nl_eq_and_jac. rewrite EP, Hp. exists ValueError; reflexivity.
  - intro Hs. unfold solve_fields_nl, run_solver_nl. rewrite String.eqb_refl. unfold born_solve.
    destruct (start_field_runs e (pol_comp (s_pol s)) Es s Hs) as (s1 & F0 & ->). reflexivity.
Qed.
(** without the optional package pyMKL, Newton fails as soon as there is anything to correct *)
Theorem C33_newton_without_pyMKL_refuted :
  forall e s av F thr n, e_pardiso e = false -> s_pol s = PolEz -> nd_size (s_src s) = s_M s -> 0 < n ->
  ~ nonlinear_solution s F ->
  snd (solve_fields_nl e av (Some F) "newton" thr n s) = Raise NameError.
Proof.
  intros e s av F thr n He Hp Hs Hn HF. unfold solve_fields_nl, run_solver_nl.
  change (String.eqb "newton" "born") with false. change (String.eqb "newton" "newton") with true. cbv iota.
  unfold newton_solve, start_field. rewrite Hp. destruct n; [lia|]. cbn [newton_loop].
  unfold nl_eq_and_jac. rewrite Hp, Hs, Nat.eqb_refl. unfold solver_complex2real, DEFAULT_SOLVER. rewrite He.
  change (s_M (compute_nl F s)) with (s_M s).
  destruct (all_zero _ _) eqn:Z; [|reflexivity]. exfalso. apply HF, residual_zero. apply all_zero_spec; assumption.
Qed.

(* ------------------------------------------------------------------ *)
(** * C34 *)
Definition no_nonlinearity (s : sim) : Prop := forall q, List.In q (s_nl s) -> nl_chi q = 0%R.
Lemma no_nl_zero s F k : no_nonlinearity s -> s_eps_nl (compute_nl F s) k = 0%R.
Proof.
  intro H. cbn [compute_nl upd_nlvals s_eps_nl]. rewrite sum_eps_nl_coef. unfold no_nonlinearity in H.
  replace (kerr_coef (s_nl s) k (nd_buf (s_eps s) k)) with 0%R; [ring|]. unfold kerr_coef.
  induction (s_nl s) as [|q l IH]; simpl; [reflexivity|]. rewrite <- IH by (intros; apply H; right; assumption).
  rewrite (H q) by (left; reflexivity). ring.
Qed.
Lemma no_nl_matrix s F : no_nonlinearity s -> forall M, meq M (nl_matrix s F) (s_A s).
Proof.
  intros H M i j _ _. unfold nl_matrix, mplus, mdiag. rewrite no_nl_zero by assumption. destruct (Nat.eqb i j); [rewrite Rmult_0_r|]; ring.
Qed.
Lemma derived_fields_ext s e1 e2 av X Y : (forall k, e1 k = e2 k) -> veq (s_M s) X Y -> forall k, k < s_M s ->
  fst (derived_fields s e1 av X) k = fst (derived_fields s e2 av Y) k /\ snd (derived_fields s e1 av X) k = snd (derived_fields s e2 av Y) k.
Proof.
  intros He HX k Hk. assert (e1 = e2) as -> by (apply FunctionalExtensionality.functional_extensionality; assumption).
  unfold derived_fields. destruct (s_pol s); cbn [fst snd]; unfold vscal; split; f_equal; apply mv_ext_v; assumption.
Qed.
Lemma solve_nl_is_linear e s G a b X a0 b0 X0 s1 s2 : solver_exact e -> no_nonlinearity s -> nonsingular (s_M s) (s_A s) ->
  solve_fields e true false (compute_nl G s) = (s1, Ok (a, b, X)) ->
  solve_fields e false false s = (s2, Ok (a0, b0, X0)) ->
  veq (s_M s) X X0 /\ veq (s_M s) a a0 /\ veq (s_M s) b b0.
Proof.
  intros He Hq HA H1 H2. apply solve_fields_ok in H1 as (_ & H1 & D1 & _). apply solve_fields_ok in H2 as (_ & H2 & D2 & _).
  rewrite used_nl_matrix in H1. change (s_M (compute_nl G s)) with (s_M s) in H1. change (rhs (compute_nl G s)) with (rhs s) in H1.
  cbn [used_matrix] in H2.
  assert (HM := no_nl_matrix s G Hq (s_M s)).
  assert (EQ: veq (s_M s) X X0).
  { apply (solves_unique _ (s_A s) _ _ (rhs s)); [assumption| |].
    - eapply solves_ext; [exact HM|intros ? _; reflexivity|]. eapply solver_direct_correct; [exact He| |exact H1].
      eapply nonsingular_ext; [apply meq_sym; exact HM|exact HA].
    - eapply solver_direct_correct; eassumption. }
  split; [exact EQ|].
  change (derived_fields (compute_nl G s) (used_eps true (compute_nl G s)) false X)
    with (derived_fields s (used_eps true (compute_nl G s)) false X) in D1.
  assert (HD := derived_fields_ext s (used_eps true (compute_nl G s)) (used_eps false s) false X X0).
  rewrite <- D1, <- D2 in HD. cbn [fst snd] in HD.
  assert (HE: forall k, used_eps true (compute_nl G s) k = used_eps false s k).
  { intro k. unfold used_eps. rewrite no_nl_zero by assumption. change (s_epsC (compute_nl G s)) with (s_epsC s). ring. }
  split; intros k Hk; destruct (HD HE EQ k Hk); assumption.
Qed.
Theorem C34_no_nonlinearity_gives_linear_fields :
  forall e s av name thr n s0 Lx Ly Lz, solver_exact e -> no_nonlinearity s -> nonsingular (s_M s) (s_A s) ->
  0 < n -> (0 < thr)%R -> (s_omega s <> 0)%R -> (exists k, k < s_M s /\ nd_buf (s_src s) k <> RtoC 0) ->
  solve_fields e false false s = (s0, Ok (Lx, Ly, Lz)) ->
  (s_fields s (pol_comp (s_pol s)) = None \/ exists X, s_fields s (pol_comp (s_pol s)) = Some X /\ veq (s_M s) X Lz) ->
  name = "born"%string \/ name = "hybrid"%string \/ (name = "newton"%string /\ s_pol s = PolEz) ->
  exists s' Fx Fy Fz conv, solve_fields_nl e av None name thr n s = (s', Ok (Fx, Fy, Fz, conv)) /\
    conv = repeat (Fin 0) (if String.eqb name "hybrid" then 20 else n) /\
    forall k, k < s_M s -> Fx k = Lx k /\ Fy k = Ly k /\ Fz k = Lz k.
Proof.
  intros e s av name thr n s0 Lx Ly Lz He Hq HA Hn Ht Ho [k0 [Hk0 Hsrc]] HL Hst Hname.
  assert (HL' := HL). apply solve_fields_ok in HL' as (Hs & HX & _ & _). cbn [used_matrix] in HX.
  assert (SL: solves (s_M s) (s_A s) Lz (rhs s)) by (eapply solver_direct_correct; eassumption).
  assert (HSTART: exists s1 X, start_field e (pol_comp (s_pol s)) None s = (s1, Ok X) /\ veq (s_M s) X Lz).
  { unfold start_field. destruct Hst as [->|[X [-> EX]]].
    - rewrite HL. exists s0, Lz. split; [reflexivity|apply veq_refl].
    - exists s, X. auto. }
  destruct HSTART as (s1 & X & ES & EX). assert (HS := start_field_same _ _ _ _ _ _ ES).
  destruct (same_rhs _ _ HS) as (ER & EM & ESZ & EP).
  assert (Hq1: no_nonlinearity s1). { unfold no_nonlinearity in *. destruct HS as (_ & _ & _ & _ & _ & _ & _ & _ & _ & _ & _ & _ & _ & _ & -> & _). exact Hq. }
  assert (EA: s_A s1 = s_A s) by (destruct HS as (_ & _ & _ & _ & _ & _ & _ & _ & _ & _ & _ & -> & _); reflexivity).
  assert (HL1: exists s3, solve_fields e false false s1 = (s3, Ok (Lx, Ly, Lz))).
  { apply solve_fields_ok in HL as (_ & _ & HD & _). cbn [used_eps] in HD.
    destruct (solve_fields_lin e false s1) as (Y & HY & H1); [congruence|]. cbv zeta in H1. rewrite H1.
    rewrite ER, EM, EA in HY. rewrite HX in HY. injection HY as <-.
    assert (ED: derived_fields s1 (s_epsC s1) false Lz = derived_fields s (s_epsC s) false Lz).
    { clear - HS. unfold same_problem in HS. destruct HS as (E1 & E2 & _ & E4 & _ & E6 & E7 & _ & _ & _ & E11 & _ & E13 & _).
      unfold derived_fields, s_epsC, s_M. rewrite E1, E2, E4, E6, E7, E11, E13. reflexivity. }
    rewrite ED, <- HD. cbn [fst snd]. eexists; reflexivity. }
  destruct HL1 as [s3 HL1].
  assert (HA1: nonsingular (s_M s1) (s_A s1)) by (rewrite EM, EA; exact HA).
  assert (Hnz: nrm (s_M s1) X <> 0%R).
  { intro HZ. apply Hsrc. rewrite EM in HZ. assert (HZ' := nrm_eq0 _ _ HZ).
    assert (Q: rhs s k0 = RtoC 0).
    { rewrite <- (SL k0 Hk0). apply csum_0. intros c Hc. rewrite <- (EX c Hc), (HZ' c Hc). ring. }
    unfold rhs in Q. apply Cmult_integral in Q as [Q|Q]; [|exfalso; apply Ho; apply (f_equal Re) in Q; exact Q].
    apply Cmult_integral in Q as [Q|Q]; [exact Q|]. exfalso. apply Ci_neq0; exact Q. }
  assert (HB: forall m, 0 < m -> exists s2 Fx Fy Fz, born_solve e None thr m av s = (s2, Ok (Fx, Fy, Fz, repeat (Fin 0) m)) /\
     forall k, k < s_M s -> Fx k = Lx k /\ Fy k = Ly k /\ Fz k = Lz k).
  { intros m Hm. unfold born_solve. rewrite ES. destruct m; [lia|]. cbn [born_loop].
    destruct (solve_nl_ok e false X s1) as (a & b & Y & E1 & HY); [congruence|]. rewrite E1.
    destruct (solve_nl_is_linear _ _ _ _ _ _ _ _ _ _ _ He Hq1 HA1 E1 HL1) as (Q1 & Q2 & Q3).
    change (s_M (compute_nl X s1)) with (s_M s1).
    rewrite convergence_same; [|rewrite EM in *; intros k Hk; rewrite (Q1 k Hk), (EX k Hk); reflexivity|exact Hnz].
    cbn [xlt]. destruct (Rlt_dec 0 thr); [|lra]. do 4 eexists. split.
    { unfold conv_array; cbn [List.app List.length Nat.sub]; rewrite Nat.sub_0_r; reflexivity. }
    rewrite EM in *. intros k Hk. auto. }
  unfold solve_fields_nl. destruct Hname as [->|[->|[-> Hp]]].
  - unfold run_solver_nl. rewrite String.eqb_refl. destruct (HB n Hn) as (s2 & Fx & Fy & Fz & -> & HF).
    do 5 eexists. split; [reflexivity|]. split; [reflexivity|exact HF].
  - rewrite hybrid_unfold. destruct (HB 20 ltac:(lia)) as (s2 & Fx & Fy & Fz & -> & HF).
    assert (E20: last_conv (repeat (Fin 0) 20) = Ok (Fin 0)) by reflexivity. rewrite E20.
    assert (EG: xgt (Fin 0) (1 / 10 ^ 10) = false).
    { cbn [xgt]. destruct (Rlt_dec _ _) as [Q|]; [|reflexivity]. exfalso.
      assert (0 < 1 / 10 ^ 10)%R by (apply Rdiv_lt_0_compat; [lra|apply pow_lt; lra]). lra. }
    rewrite EG. do 5 eexists. split; [reflexivity|]. split; [reflexivity|exact HF].
  - unfold run_solver_nl. change (String.eqb "newton" "born") with false. change (String.eqb "newton" "newton") with true. cbv iota.
    unfold newton_solve. rewrite Hp. rewrite Hp in ES. cbn [pol_comp] in ES. rewrite ES. destruct n; [lia|]. cbn [newton_loop].
    unfold nl_eq_and_jac. rewrite EP, Hp, ESZ, EM, Hs, Nat.eqb_refl. unfold solver_complex2real.
    change (s_M (compute_nl X s1)) with (s_M s1). rewrite EM.
    assert (RZ: all_zero (s_M s) (nl_residual s1 X) = true).
    { apply all_zero_spec. intros k Hk. rewrite residual_at by (rewrite EM; exact Hk). rewrite no_nl_zero by assumption.
      rewrite EM, EA. rewrite (csum_ext _ _ (fun c => s_A s k c * Lz c)%C) by (intros c Hc; rewrite (EX c Hc); reflexivity).
      rewrite (SL k Hk). rewrite Rmult_0_r. change (nd_buf (s_src s1) k * Ci * RtoC (s_omega s1))%C with (rhs s1 k). rewrite ER. ring. }
    rewrite RZ. assert (EQ0: veq (s_M s1) (vminus X vzero) X) by (intros k Hk; unfold vminus, vzero; ring).
    rewrite EM in EQ0, Hnz. rewrite (convergence_same _ _ _ EQ0 Hnz). cbn [xlt]. destruct (Rlt_dec 0 thr); [|lra].
    rewrite compute_nl_twice. destruct (solve_nl_ok e false (vminus X vzero) s1) as (a & b & Y & E1 & HY); [congruence|]. rewrite E1.
    destruct (solve_nl_is_linear _ _ _ _ _ _ _ _ _ _ _ He Hq1 HA1 E1 HL1) as (Q1 & Q2 & Q3). rewrite EM in *.
    do 5 eexists. split; [reflexivity|]. split; [|intros k Hk; auto].
    unfold conv_array; cbn [List.app List.length Nat.sub]; rewrite Nat.sub_0_r; reflexivity.
Qed.

(* ------------------------------------------------------------------ *)
(** ** a concrete nonlinear system (3 x 2 pixels, Kerr nonlinearity everywhere) *)
Lemma Ez_widely_injective omega L0 Nx Ny xr yr (eps : rvec) av d (D : rvec) (Q : vec) :
  2 <= Nx -> 2 <= Ny -> dL Nx Ny xr yr = (d, d) -> (0 < d)%R -> (0 < L0)%R ->
  (forall k, k < Nx * Ny -> (8 < omega ^ 2 * (EPSILON_0 * L0) * (MU_0 * L0) * (d * d) * eps k)%R) ->
  (forall k, k < Nx * Ny -> (Cmod (Q k) <= D k)%R) ->
  widely_injective (Nx * Ny) (mplus (fst (construct_A omega xr yr Nx Ny (cvec eps) (0,0) PolEz L0 av)) (mdiag (fun k => RtoC (D k)))) (mdiag Q).
Proof.
  intros HNx HNy Hd Hd0 HL He HQ x Hx.
  set (A := fst (construct_A omega xr yr Nx Ny (cvec eps) (0,0) PolEz L0 av)) in *.
  destruct (max_index (Nx * Ny) x) as [p [Hp Hmax]]; [nia|].
  enough (x p = RtoC 0) as E.
  { intros j Hj. apply Cmod_eq_0. specialize (Hmax j Hj). rewrite E, Cmod_0 in Hmax. assert (0 <= Cmod (x j))%R by apply Cmod_ge_0. lra. }
  assert (H: (mv (Nx * Ny) A x p + RtoC (D p) * x p + Q p * Cconj (x p))%C = RtoC 0).
  { rewrite <- (Hx p Hp).
    change (csum (Nx * Ny) (fun c => mplus A (mdiag (fun k => RtoC (D k))) p c * x c)%C) with (mv (Nx * Ny) (mplus A (mdiag (fun k => RtoC (D k)))) x p).
    change (csum (Nx * Ny) (fun c => mdiag Q p c * Cconj (x c))%C) with (mv (Nx * Ny) (mdiag Q) (vconj x) p).
    rewrite mv_mplus, !mv_diag by assumption. reflexivity. }
  unfold A in H. specialize (HQ p Hp).
  destruct (pix_bound _ _ _ Hp) as (i & j & Hi & Hj & ->).
  rewrite (mv_construct_Ez_stencil omega L0 Nx Ny xr yr (cvec eps) av d) in H by (try assumption; lra).
  unfold laplacian in H.
  set (xp := x (pix Ny i j)) in *.
  set (xe := x (pix Ny (next Nx i) j)) in *. set (xw := x (pix Ny (prev Nx i) j)) in *.
  set (xn := x (pix Ny i (next Ny j))) in *. set (xs := x (pix Ny i (prev Ny j))) in *.
  assert (Hb: (Cmod xe <= Cmod xp /\ Cmod xw <= Cmod xp /\ Cmod xn <= Cmod xp /\ Cmod xs <= Cmod xp)%R).
  { repeat split; apply Hmax; apply flat_lt; try assumption; (apply next_lt || apply prev_lt); assumption. }
  assert (Hmu: (0 < MU_0 * L0)%R) by (apply Rmult_lt_0_compat; [apply MU_0_pos|lra]).
  assert (Hdd: (0 < d * d)%R) by nra.
  specialize (He _ Hp). set (g := (omega ^ 2 * (EPSILON_0 * L0) * (MU_0 * L0) * (d * d) * eps (pix Ny i j))%R) in *.
  set (Dp := D (pix Ny i j)) in *. set (Qp := Q (pix Ny i j)) in *. set (md := (MU_0 * L0 * (d * d))%R).
  assert (Hmd: (0 < md)%R) by (unfold md; nra).
  assert (E: (RtoC (g - 4 + md * Dp) * xp)%C = (- (xe + xw + xn + xs + RtoC md * (Qp * Cconj xp)))%C).
  { assert (E0: ((xe + xw + xn + xs - RtoC 4 * xp) + RtoC g * xp + RtoC md * (RtoC Dp * xp + Qp * Cconj xp))%C = RtoC 0).
    { transitivity (RtoC (MU_0 * L0) * RtoC (d * d) *
        (RtoC (1 / (MU_0 * L0)) * ((xe + xw + xn + xs - RtoC 4 * xp) / RtoC (d * d)) +
          RtoC (omega ^ 2 * (EPSILON_0 * L0)) * cvec eps (pix Ny i j) * xp + RtoC Dp * xp + Qp * Cconj xp))%C.
      - unfold cvec, g, md.
        replace (omega ^ 2 * (EPSILON_0 * L0) * (MU_0 * L0) * (d * d) * eps (pix Ny i j))%R
          with ((omega ^ 2 * (EPSILON_0 * L0)) * (MU_0 * L0) * (d * d) * eps (pix Ny i j))%R by ring.
        rewrite (RtoC_mult _ (eps (pix Ny i j))), !(RtoC_mult _ (d * d)), (RtoC_mult _ (MU_0 * L0)).
        rewrite RtoC_div by lra.
        field. split; apply RtoC_neq0; lra.
      - rewrite H. ring. }
    rewrite RtoC_plus, RtoC_minus, RtoC_mult.
    match goal with |- ?l = (- ?r)%C =>
      replace l with ((xe + xw + xn + xs - RtoC 4 * xp) + RtoC g * xp + RtoC md * (RtoC Dp * xp + Qp * Cconj xp) - r)%C by ring end.
    rewrite E0. ring. }
  apply (f_equal Cmod) in E. rewrite Cmod_mult, Cmod_R, Cmod_opp in E.
  assert (T := Cmod_triangle4 xe xw xn xs).
  assert (T2 := Cmod_triangle (xe + xw + xn + xs)%C (RtoC md * (Qp * Cconj xp))%C).
  rewrite (Cmod_mult (RtoC md)), Cmod_mult, Cmod_conj, Cmod_R, (Rabs_pos_eq md) in T2 by lra.
  assert (0 <= Cmod xp)%R by apply Cmod_ge_0. assert (0 <= Cmod Qp)%R by apply Cmod_ge_0.
  assert (Hm2: (md * (Cmod Qp * Cmod xp) <= md * (Dp * Cmod xp))%R).
  { apply Rmult_le_compat_l; [lra|]. apply Rmult_le_compat_r; assumption. }
  assert (0 <= md * Dp)%R by (apply Rmult_le_pos; lra).
  rewrite Rabs_pos_eq in E by lra. apply Cmod_eq_0. nra.
Qed.

Definition ex_F : vec := fun k => match k with 0 => (1, 0)%R | 1 => (0, 2)%R | _ => (1, -1)%R end.
(** the simulation after add_nl (chi = 1/10 everywhere), before the source is set *)
Definition ex_nl0 : sim := fst (add_nl (1/10) (fun _ => 1%R) "kerr" false None (ex_s "Ez")).
Definition ex_nl_src : nd C := mkNd 3 2 (fun k =>
  (mv 6 (nl_matrix ex_nl0 ex_F) ex_F k / (Ci * RtoC (s_omega ex_nl0)))%C).
Definition ex_nl : sim := run_ops ex_env_mkl [AddNl (1/10) (fun _ => 1%R) "kerr" false None; SetSrc ex_nl_src] (ex_s "Ez").
Lemma ex_nl_reachable : reachable ex_env_mkl ex_nl.
Proof.
  do 6 eexists; exists (ex_s "Ez"); eexists. split; [|split; [|split; [|split; [apply (ex_s_eq "Ez"); auto|reflexivity]]]]; simpl; lra || lia.
Qed.
Lemma ex_nl_eq : ex_nl = upd_src ex_nl_src ex_nl0. Proof. reflexivity. Qed.
Lemma ex_nl_facts : s_M ex_nl = 6 /\ s_pol ex_nl = PolEz /\ nd_size (s_src ex_nl) = 6 /\ s_L0 ex_nl = 1%R /\ s_omega ex_nl = ex_omega /\
  (forall F k, s_eps_nl (compute_nl F ex_nl) k = (3 / 10 * Cnorm2 (F k))%R) /\
  (forall F k, s_dnl_de (compute_nl F ex_nl) k = (RtoC (3 / 10) * Cconj (F k))%C) /\
  s_A ex_nl = fst (construct_A ex_omega (0, 3)%R (0, 2)%R 3 2 (cvec (nd_buf ex_eps)) (0,0) PolEz 1 true).
Proof.
  assert (HS := ex_s_eq "Ez" (or_introl eq_refl)). unfold ex_sim_res, Simulation in HS. rewrite ex_check in HS by auto.
  injection HS as HS. unfold ex_nl, run_ops. cbn [fold_left run_op]. rewrite <- HS.
  split; [reflexivity|]. split; [reflexivity|]. split; [reflexivity|]. split; [reflexivity|]. split; [reflexivity|].
  split; [|split].
  - intros F k. cbn [compute_nl upd_nlvals s_eps_nl]. rewrite sum_eps_nl_coef. f_equal. unfold kerr_coef. simpl. unfold nl_scale; simpl. field.
  - intros F k. cbn [compute_nl upd_nlvals s_dnl_de]. rewrite sum_dnl_de_coef. f_equal. f_equal. unfold kerr_coef. simpl. unfold nl_scale; simpl. field.
  - match goal with |- ?l = _ => change l with (fst (construct_A ex_omega (0, INR 3 * 1)%R (0, INR 2 * 1)%R 3 2 (cvec (nd_buf ex_eps)) (0,0) PolEz 1 true)) end.
    replace (INR 3 * 1)%R with 3%R by (simpl; ring). replace (INR 2 * 1)%R with 2%R by (simpl; ring). reflexivity.
Qed.
Lemma ex_nl_big k : k < 3 * 2 -> (8 < ex_omega ^ 2 * (EPSILON_0 * 1) * (MU_0 * 1) * (1 * 1) * nd_buf ex_eps k)%R.
Proof.
  intro Hk. replace (ex_omega ^ 2 * (EPSILON_0 * 1) * (MU_0 * 1) * (1 * 1))%R with (ex_omega ^ 2 * (EPSILON_0 * MU_0))%R by ring.
  rewrite ex_omega_sq. simpl in Hk.
  assert (1 <= nd_buf ex_eps k)%R by (do 6 (destruct k; [simpl; lra|]); simpl; lra). lra.
Qed.
Lemma ex_nl_dL : dL 3 2 (0, 3)%R (0, 2)%R = (1, 1)%R.
Proof. unfold dL. simpl. f_equal; field. Qed.
Lemma ex_c_pos : (0 <= ex_omega ^ 2 * EPSILON_0 * 1)%R.
Proof. assert (H1 := pow2_ge_0 ex_omega). assert (H2 := EPSILON_0_pos). rewrite Rmult_1_r. apply Rmult_le_pos; lra. Qed.
Lemma ex_nl_nonsingular F : nonsingular (s_M ex_nl) (nl_matrix ex_nl F).
Proof.
  destruct ex_nl_facts as (EM & EP & ES & EL & EO & EE & ED & EA). rewrite EM. apply injective_nonsingular. intros x Hx.
  assert (W := Ez_widely_injective ex_omega 1 3 2 (0,3)%R (0,2)%R (nd_buf ex_eps) true 1
     (fun k => ex_omega ^ 2 * EPSILON_0 * 1 * (3 / 10 * Cnorm2 (F k)))%R (fun _ => RtoC 0)
     ltac:(lia) ltac:(lia) ex_nl_dL ltac:(lra) ltac:(lra) ex_nl_big).
  apply W.
  - intros k Hk. rewrite Cmod_0. apply Rmult_le_pos; [apply ex_c_pos|]. apply Rmult_le_pos; [lra|apply Cnorm2_ge0].
  - intros r Hr. refine (eq_trans _ (Hx r Hr)). unfold nl_matrix. rewrite EA, EL, EO.
    rewrite (csum_0 _ (fun c => mdiag (fun _ => RtoC 0) r c * Cconj (x c))%C); [|intros; unfold mdiag; destruct (Nat.eqb _ _); ring].
    rewrite Cplus_0_r. unfold mv. apply csum_ext. intros c Hc. f_equal. unfold mplus, mdiag. rewrite EE. reflexivity.
Qed.
Lemma ex_nl_solution : nonlinear_solution ex_nl ex_F.
Proof.
  destruct ex_nl_facts as (EM & EP & ES & EL & EO & EE & ED & EA). apply nonlinear_solution_solves. rewrite solves_mv.
  intros k Hk. rewrite EM in *. unfold rhs. rewrite ex_nl_eq. cbn [upd_src s_src s_omega nd_buf ex_nl_src].
  change (nl_matrix (upd_src ex_nl_src ex_nl0) ex_F) with (nl_matrix ex_nl0 ex_F).
  assert (RtoC (s_omega ex_nl0) <> RtoC 0) by (apply RtoC_neq0; change (s_omega ex_nl0) with (s_omega ex_nl); rewrite EO; assert (P := ex_omega_pos); lra).
  assert (P := Ci_neq0). field. auto.
Qed.
Lemma ex_nl_widely E : widely_injective (s_M ex_nl) (nl_jac11 ex_nl E) (nl_jac12 ex_nl E).
Proof.
  destruct ex_nl_facts as (EM & EP & ES & EL & EO & EE & ED & EA).
  assert (Hn: forall k, (0 <= 3 / 10 * Cnorm2 (E k))%R) by (intro k; apply Rmult_le_pos; [lra|apply Cnorm2_ge0]).
  assert (Hc: (0 <= ex_omega ^ 2 * EPSILON_0 * 1)%R) by apply ex_c_pos.
  assert (W := Ez_widely_injective ex_omega 1 3 2 (0,3)%R (0,2)%R (nd_buf ex_eps) true 1
     (fun k => ex_omega ^ 2 * EPSILON_0 * 1 * (2 * (3 / 10 * Cnorm2 (E k))))%R
     (fun k => RtoC (ex_omega ^ 2 * EPSILON_0 * 1) * (RtoC (3 / 10) * (E k * E k)))%C
     ltac:(lia) ltac:(lia) ex_nl_dL ltac:(lra) ltac:(lra) ex_nl_big).
  rewrite EM. intros x Hx. apply W.
  - intros k Hk. rewrite !Cmod_mult, !Cmod_R, (Rabs_pos_eq _ Hc), (Rabs_pos_eq (3/10)) by lra. apply Rmult_le_compat_l; [exact Hc|].
    rewrite <- (Cmod2 (E k)). assert (P := pow2_ge_0 (Cmod (E k))). simpl in *. nra.
  - intros r Hr. refine (eq_trans _ (Hx r Hr)).
    change (csum 6 (fun c => nl_jac11 ex_nl E r c * x c)%C) with (mv 6 (nl_jac11 ex_nl E) x r).
    change (csum 6 (fun c => nl_jac12 ex_nl E r c * Cconj (x c))%C) with (mv 6 (nl_jac12 ex_nl E) (vconj x) r).
    assert (J1 := jac11_mv ex_nl E x r). assert (J2 := jac12_mv ex_nl E (vconj x) r). rewrite EM in J1, J2.
    rewrite (J1 Hr), (J2 Hr). clear J1 J2.
    match goal with |- (?a + ?b)%C = _ => change a with (mv 6 (mplus (fst (construct_A ex_omega (0, 3)%R (0, 2)%R 3 2 (cvec (nd_buf ex_eps)) (0, 0) PolEz 1 true))
          (mdiag (fun k : nat => RtoC (ex_omega ^ 2 * EPSILON_0 * 1 * (2 * (3 / 10 * Cnorm2 (E k))))))) x r);
       change b with (mv 6 (mdiag (fun k => RtoC (ex_omega ^ 2 * EPSILON_0 * 1) * (RtoC (3 / 10) * (E k * E k)))%C) (vconj x) r) end.
    rewrite mv_mplus, !mv_diag by exact Hr. rewrite <- EA. rewrite EL, EO, EE, ED. unfold mv.
    rewrite Cconj_mult, Cconj_RtoC, Cconj_invol.
    rewrite !(RtoC_mult (ex_omega ^ 2 * EPSILON_0 * 1)), !RtoC_mult, <- Cmult_conj_r. cring.
Qed.
Example C29_met : reachable ex_env_mkl ex_nl /\ solver_exact ex_env_mkl /\ nd_size (s_src ex_nl) = s_M ex_nl /\
  nonlinear_solution ex_nl ex_F /\ (forall F, nonsingular (s_M ex_nl) (nl_matrix ex_nl F)) /\
  (exists k, k < s_M ex_nl /\ ex_F k <> RtoC 0 /\ s_eps_nl (compute_nl ex_F ex_nl) k <> 0%R).
Proof.
  destruct ex_nl_facts as (EM & EP & ES & EL & EO & EE & ED & EA).
  split; [apply ex_nl_reachable|]. split; [apply ex_mkl_exact|]. split; [rewrite EM; exact ES|]. split; [apply ex_nl_solution|].
  split; [apply ex_nl_nonsingular|]. exists 1. rewrite EM, EE. split; [lia|]. split.
  - intro Q. apply (f_equal Im) in Q. simpl in Q. lra.
  - unfold ex_F, Cnorm2. simpl. lra.
Qed.
Example C30_met : s_pol ex_nl = PolEz /\ real_solver_exact ex_env_mkl /\
  (forall E, widely_injective (s_M ex_nl) (nl_jac11 ex_nl E) (nl_jac12 ex_nl E)) /\
  exists s' F conv, solve_fields_nl ex_env_mkl false None "newton" (1 / 10 ^ 10) 50 ex_nl = (s', Ok (F, conv)).
Proof.
  destruct ex_nl_facts as (EM & EP & ES & EL & EO & EE & ED & EA).
  split; [exact EP|]. split; [apply ex_mkl_real_exact|]. split; [apply ex_nl_widely|].
  destruct (C33_solvers_run_partial ex_env_mkl ex_nl false None (1 / 10 ^ 10) 50) as (_ & H & _); [congruence|lia|].
  apply H; [exact EP|reflexivity].
Qed.
Example C32_met : exists s1 F, born_solve ex_env_mkl (Some ex_F) (1 / 10 ^ 10) 20 false ex_nl = (s1, Ok (F, repeat (Fin 0) 20)) /\
  exists i, i < 20 /\ xlt (List.nth i (repeat (Fin 0) 20) NaN) (1 / 10 ^ 10) = true.
Proof.
  destruct ex_nl_facts as (EM & EP & ES & EL & EO & EE & ED & EA). destruct C29_met as (_ & H1 & H2 & H3 & H4 & k & Hk & H5 & _).
  assert (Hthr: (0 < 1 / 10 ^ 10)%R) by (apply Rdiv_lt_0_compat; [lra|apply pow_lt; lra]).
  destruct (C29_born_reproduces_solutions ex_env_mkl ex_nl ex_F (1 / 10 ^ 10) 20 false H1 H2 ltac:(lia) Hthr H3 (H4 _) (ex_intro _ k (conj Hk H5)))
    as (s' & Fx & Fy & Fz & H & _).
  unfold solve_fields_nl, run_solver_nl in H. rewrite String.eqb_refl in H.
  destruct (born_solve _ _ _ _ _ _) as [s2 [[F cv]|]]; [|discriminate]. injection H as _ _ ->.
  do 2 eexists. split; [reflexivity|]. exists 3. split; [lia|]. cbn [repeat List.nth xlt]. destruct (Rlt_dec _ _); [reflexivity|contradiction].
Qed.
Example C34_met : no_nonlinearity (ex_s "Ez") /\ nonsingular (s_M (ex_s "Ez")) (s_A (ex_s "Ez")) /\
  (s_omega (ex_s "Ez") <> 0)%R /\ s_fields (ex_s "Ez") (pol_comp (s_pol (ex_s "Ez"))) = None.
Proof.
  split; [|split; [apply ex_nonsingular|]].
  - assert (HS := ex_s_eq "Ez" (or_introl eq_refl)). unfold ex_sim_res, Simulation in HS. rewrite ex_check in HS by auto.
    injection HS as <-. intros q [].
  - assert (HS := ex_s_eq "Ez" (or_introl eq_refl)). unfold ex_sim_res, Simulation in HS. rewrite ex_check in HS by auto.
    injection HS as <-. split; [|reflexivity]. assert (P := ex_omega_pos). simpl. lra.
Qed.
