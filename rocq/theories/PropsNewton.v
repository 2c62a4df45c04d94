(** C99: Newton's iteration near a solution.  Around every solution at which the derivative of the
    nonlinear equation is invertible, the Newton solver converges quadratically: the number of correct
    digits doubles with every iteration. *)
From Coq Require Import Reals Lra Lia List ZArith Arith Bool String.
From Coquelicot Require Import Coquelicot.
From Verif Require Import Base Linear MCore MSim Spec PCore PSim PropsSolve PropsNl PropsLin PEx PropsIter PropsScan PDiff PImpl PWeak PropsWeak PNewton.
Import ListNotations.
Local Open Scope nat_scope.

(** ** The specification *)

(** X solves the nonlinear equation; the derivative of its residual at X (C30_jacobian_exact) is injective;
    the linear system with the permittivity of X is solvable. *)
Definition regular_solution (s : sim) (X : vec) : Prop :=
  nonlinear_solution s X /\ widely_injective (s_M s) (nl_jac11 s X) (nl_jac12 s X) /\ nonsingular (s_M s) (nl_matrix s X).

(** ** Link with the abstract system *)

Lemma residual_kfun s x k : k < s_M s -> nl_residual s x k = kfun (s_M s) (s_A s) (rhs s) (gk s) x k.
Proof.
  intro Hk. rewrite residual_at by exact Hk. rewrite nl_term. unfold kfun, rhs, mv. reflexivity.
Qed.
Lemma jac_kjac s x h : veq (s_M s) (wl (s_M s) (nl_jac11 s x) (nl_jac12 s x) h) (kjac (s_M s) (s_A s) (gk s) x h).
Proof.
  intros k Hk. unfold wl. rewrite jac11_mv, jac12_mv by exact Hk. unfold kjac, vconj, gk.
  cbn [compute_nl upd_nlvals s_eps_nl s_dnl_de]. rewrite sum_eps_nl_coef, sum_dnl_de_coef.
  rewrite Cconj_mult, Cconj_RtoC, Cconj_invol. rewrite !(RtoC_mult 2), !RtoC_mult, <- !Cmult_conj_r.
  replace (RtoC 2) with (RtoC 1 + RtoC 1)%C by (rewrite <- RtoC_plus; f_equal; ring). unfold mv. ring.
Qed.
Lemma gk_bound s : exists G, (0 <= G)%R /\ forall k, k < s_M s -> (Rabs (gk s k) <= G)%R.
Proof.
  exists (rsum (s_M s) (fun k => Rabs (gk s k))). split; [apply rsum_ge0; intros; apply Rabs_pos|].
  intros k Hk. apply (rsum_term_le (s_M s) (fun k => Rabs (gk s k))); [intros; apply Rabs_pos|exact Hk].
Qed.
Lemma solution_kfun s X : nonlinear_solution s X -> forall k, k < s_M s -> kfun (s_M s) (s_A s) (rhs s) (gk s) X k = RtoC 0.
Proof. intros H k Hk. rewrite <- residual_kfun by exact Hk. apply residual_zero; assumption. Qed.

(** one Newton step of the code *)
Lemma newton_step_ok e s K x d sv : real_solver_exact e -> (forall h, (nrm (s_M s) h <= K * nrm (s_M s) (kjac (s_M s) (s_A s) (gk s) x h))%R) ->
  solver_complex2real e (s_M s) (nl_jac11 s x) (nl_jac12 s x) (nl_residual s x) sv = Ok d ->
  veq (s_M s) (kjac (s_M s) (s_A s) (gk s) x (vminus x (vminus x d))) (kfun (s_M s) (s_A s) (rhs s) (gk s) x).
Proof.
  intros Hr HS Hd.
  assert (HI : widely_injective (s_M s) (nl_jac11 s x) (nl_jac12 s x)).
  { intros h Hh. apply nrm_eq0. assert (Hw : forall k, k < s_M s -> wl (s_M s) (nl_jac11 s x) (nl_jac12 s x) h k = RtoC 0) by (intros k Hk; exact (Hh k Hk)). assert (Q := HS h). rewrite <- (nrm_ext _ _ _ (jac_kjac s x h)), (nrm_zero _ _ Hw) in Q. assert (P := nrm_ge0 (s_M s) h). lra. }
  assert (HC := C28_complex2real_solves_widely_linear_system e _ _ _ _ _ Hr HI _ Hd).
  assert (H1 : widely_solves (s_M s) (nl_jac11 s x) (nl_jac12 s x) (vminus x (vminus x d)) (nl_residual s x)) by (apply HC; intros k _; unfold vminus; ring).
  intros k Hk. rewrite <- (jac_kjac s x _ k Hk), <- residual_kfun by exact Hk. exact (H1 k Hk).
Qed.

Lemma pow_sq_step q m : (q ^ (2 ^ S m - 1) = (q * q) ^ (2 ^ m - 1) * q)%R.
Proof.
  replace (q * q)%R with (q ^ 2)%R by ring. rewrite <- pow_mult. rewrite <- (pow_1 q) at 3. rewrite <- pow_add. f_equal. simpl.
  assert (1 <= 2 ^ m) by (clear; induction m; simpl; lia). lia.
Qed.
Lemma pow_le1 q m : (0 <= q <= 1)%R -> (q ^ m <= 1)%R.
Proof. intro H. induction m; simpl; [lra|]. assert (0 <= q ^ m)%R by (apply pow_le; lra). nra. Qed.

Lemma newton_loop_error e X K G rho thr n : real_solver_exact e -> forall E s s' Y l, (0 <= K)%R -> (0 <= G)%R ->
  (forall k, k < s_M s -> (Rabs (gk s k) <= G)%R) -> nonlinear_solution s X ->
  (forall x, (nrm (s_M s) (vminus x X) <= rho)%R -> forall h, (nrm (s_M s) h <= K * nrm (s_M s) (kjac (s_M s) (s_A s) (gk s) x h))%R) ->
  (K * G * (3 * nrm (s_M s) X + 4 * rho) * rho <= 1)%R -> (nrm (s_M s) (vminus E X) <= rho)%R ->
  newton_loop e thr n E s = (s', Ok (Y, l)) ->
  (nrm (s_M s) (vminus Y X) <= (K * G * (3 * nrm (s_M s) X + 4 * rho) * nrm (s_M s) (vminus E X)) ^ (2 ^ List.length l - 1) * nrm (s_M s) (vminus E X))%R /\
  (nrm (s_M s) (vminus Y X) <= nrm (s_M s) (vminus E X))%R /\
  (List.length l < n -> exists Ep, (nrm (s_M s) (vminus Ep X) <= rho)%R /\ (nrm (s_M s) (vminus Y Ep) <= thr * nrm (s_M s) Y)%R /\
     (nrm (s_M s) (vminus Y X) <= K * G * (3 * nrm (s_M s) X + 4 * rho) * nrm (s_M s) (vminus Ep X) ^ 2)%R).
Proof.
  intro Hr. induction n as [|n IH]; intros E s s' Y l HK0 HG0 HG HX HS HQ HE H.
  - injection H as <- <- <-. simpl. split; [lra|]. split; [lra|lia].
  - cbn [newton_loop] in H. destruct (nl_eq_and_jac E s) as [s1 [[[f J1] J2]|]] eqn:E1; [|discriminate].
    unfold nl_eq_and_jac in E1. destruct (s_pol s); [|discriminate]. destruct (Nat.eqb _ _); [|discriminate].
    injection E1 as <- <- <- <-. change (s_M (compute_nl E s)) with (s_M s) in H.
    destruct (solver_complex2real _ _ _ _ _ _) as [d|] eqn:Ed; [|discriminate].
    assert (ST := newton_step_ok _ _ _ _ _ _ Hr (HS E HE) Ed).
    assert (D1 := newton_step (s_M s) (s_A s) (rhs s) (gk s) G HG HG0 K X E (vminus E d) HK0 (solution_kfun s X HX) (HS E HE) ST).
    set (x' := vminus E d) in *. set (N := s_M s) in *. assert (P0 := nrm_ge0 N (vminus E X)). assert (PX := nrm_ge0 N X). assert (P1 := nrm_ge0 N (vminus x' X)).
    assert (KG : (0 <= K * G)%R) by (apply Rmult_le_pos; assumption).
    set (cc := (K * G * (3 * nrm N X + 4 * rho))%R) in *. assert (C0 : (0 <= cc)%R) by (unfold cc; apply Rmult_le_pos; [exact KG|lra]).
    assert (D2 : (nrm N (vminus x' X) <= cc * nrm N (vminus E X) ^ 2)%R).
    { eapply Rle_trans; [exact D1|]. apply Rmult_le_compat_r; [apply pow2_ge_0|]. unfold cc. apply Rmult_le_compat_l; [exact KG|lra]. }
    assert (Q0 : (0 <= cc * nrm N (vminus E X) <= 1)%R) by (split; [apply Rmult_le_pos; assumption|eapply Rle_trans; [apply Rmult_le_compat_l; [exact C0|exact HE]|exact HQ]]).
    assert (D3 : (nrm N (vminus x' X) <= nrm N (vminus E X))%R) by (eapply Rle_trans; [exact D2|]; simpl; nra).
    destruct (xlt (convergence N x' E) thr) eqn:Ec.
    + injection H as <- <- <-. cbn [List.length]. change (2 ^ 1 - 1) with 1. rewrite pow_1. split; [lra|]. split; [exact D3|]. intros _. exists E. split; [exact HE|]. split; [|exact D2].
      unfold convergence, xdiv in Ec. destruct (Req_EM_T (nrm N x') 0) as [Z|Z]; [destruct (Req_EM_T _ 0); discriminate|]. cbn in Ec. destruct (Rlt_dec _ _) as [L|]; [|discriminate].
      assert (PN := nrm_ge0 N x'). assert (PP : (0 < nrm N x')%R) by lra. apply (Rmult_lt_compat_r (nrm N x')) in L; [|exact PP].
      replace (nrm N (vminus x' E) / nrm N x' * nrm N x')%R with (nrm N (vminus x' E)) in L by (field; exact Z). lra.
    + destruct (newton_loop e thr n x' (compute_nl E s)) as [s2 [[Y2 l2]|]] eqn:E2; [|discriminate]. injection H as <- <- <-.
      destruct (IH x' (compute_nl E s) _ _ _ HK0 HG0 HG HX HS HQ (Rle_trans _ _ _ D3 HE) E2) as (I1 & I2 & I3).
      change (s_M (compute_nl E s)) with N in *. fold cc in I1, I3. split; [|split].
      * eapply Rle_trans; [exact I1|]. cbn [List.length]. rewrite pow_sq_step.
        assert (R1 : (cc * nrm N (vminus x' X) <= cc * nrm N (vminus E X) * (cc * nrm N (vminus E X)))%R).
        { replace (cc * nrm N (vminus E X) * (cc * nrm N (vminus E X)))%R with (cc * (cc * nrm N (vminus E X) ^ 2))%R by ring. apply Rmult_le_compat_l; assumption. }
        rewrite (Rmult_assoc (_ ^ _)). apply Rmult_le_compat; [apply pow_le, Rmult_le_pos; assumption|exact P1| |].
        -- apply pow_incr. split; [apply Rmult_le_pos; assumption|exact R1].
        -- eapply Rle_trans; [exact D2|]. apply Req_le. ring.
      * lra.
      * cbn [List.length]. intro L. apply I3. lia.
Qed.

(** constants around a regular solution *)
Lemma near_regular s X : regular_solution s X -> exists K K2 G rho, (0 < K)%R /\ (0 < K2)%R /\ (0 <= G)%R /\ (0 < rho <= 1)%R /\
  (forall k, k < s_M s -> (Rabs (gk s k) <= G)%R) /\
  (forall x, (nrm (s_M s) (vminus x X) <= rho)%R -> forall h, (nrm (s_M s) h <= K * nrm (s_M s) (kjac (s_M s) (s_A s) (gk s) x h))%R) /\
  (forall x, (nrm (s_M s) (vminus x X) <= rho)%R -> forall h, (nrm (s_M s) h <= K2 * nrm (s_M s) (kres (s_M s) (s_A s) (gk s) x h))%R) /\
  (K * G * (3 * nrm (s_M s) X + 4 * rho) * rho <= 1 / 2)%R.
Proof.
  intros (HX & HI & HN). destruct (gk_bound s) as (G & HG0 & HG).
  destruct (widely_stable _ _ _ HI) as (K0 & HK0 & HS0). destruct (nonsingular_stable _ _ HN) as (K2 & HK2 & HS2).
  set (N := s_M s) in *. set (a := nrm N X). assert (A0 : (0 <= a)%R) by apply nrm_ge0.
  assert (HS : forall h, (nrm N h <= K0 * nrm N (kjac N (s_A s) (gk s) X h))%R) by (intro h; assert (EJ := nrm_ext _ _ _ (jac_kjac s X h)); fold N in EJ; rewrite <- EJ; apply HS0).
  assert (HS2' : forall h, (nrm N h <= K2 * nrm N (kres N (s_A s) (gk s) X h))%R).
  { intro h. eapply Rle_trans; [apply HS2|]. apply Req_le. f_equal. apply nrm_ext. intros k Hk. unfold kres. apply (mv_ext _ _ _ h h (nl_matrix_kmat s X) (fun _ _ => eq_refl) k Hk). }
  set (t1 := (6 * (K0 * G * (2 * a + 1)))%R). set (t2 := (4 * (K0 * G * (3 * a + 4)))%R). set (t3 := (2 * (K2 * G * (2 * a + 1)))%R).
  assert (T1 : (0 <= t1)%R) by (unfold t1; apply Rmult_le_pos; [lra|]; apply Rmult_le_pos; [apply Rmult_le_pos|]; lra).
  assert (T2 : (0 <= t2)%R) by (unfold t2; apply Rmult_le_pos; [lra|]; apply Rmult_le_pos; [apply Rmult_le_pos|]; lra).
  assert (T3 : (0 <= t3)%R) by (unfold t3; apply Rmult_le_pos; [lra|]; apply Rmult_le_pos; [apply Rmult_le_pos|]; lra).
  set (rho := (/ (1 + t1 + t2 + t3))%R). assert (R0 : (0 < rho)%R) by (apply Rinv_0_lt_compat; lra).
  assert (RT : ((1 + t1 + t2 + t3) * rho = 1)%R) by (apply Rinv_r; lra).
  assert (U1 : (t1 * rho <= 1)%R) by nra. assert (U2 : (t2 * rho <= 1)%R) by nra. assert (U3 : (t3 * rho <= 1)%R) by nra. assert (R1 : (rho <= 1)%R) by nra.
  assert (SZ : forall x, (nrm N (vminus x X) <= rho)%R -> (nrm N x <= a + 1)%R) by (intros x Hx; assert (T := nrm_sub_ge N x X); fold a in T; lra).
  exists (2 * K0)%R, (2 * K2)%R, G, rho. split; [lra|]. split; [lra|]. split; [exact HG0|]. split; [lra|]. split; [exact HG|]. split; [|split].
  - intros x Hx h. replace (2 * K0)%R with (K0 / (1 - 1 / 2))%R by field. apply (kjac_stable_near N (s_A s) (gk s) G HG HG0 X x K0 (1 / 2)); [lra|exact HS| |lra].
    assert (PD := nrm_ge0 N (vminus x X)). assert (S1 := SZ x Hx). assert (PX := nrm_ge0 N x). fold a.
    eapply Rle_trans; [|apply (Rmult_le_compat_l (1 / 2)) in U1; [|lra]; rewrite Rmult_1_r in U1; exact U1]. unfold t1.
    assert (M : ((a + nrm N x) * nrm N (vminus x X) <= (2 * a + 1) * rho)%R) by (apply Rmult_le_compat; lra).
    apply (Rmult_le_compat_l (3 * (K0 * G))) in M; [|apply Rmult_le_pos; [lra|apply Rmult_le_pos; lra]]. lra.
  - intros x Hx h. apply (kres_stable_near N (s_A s) (gk s) G HG HG0 X x K2); [lra|exact HS2'|]. rewrite (nrm_sub_sym N X x).
    assert (PD := nrm_ge0 N (vminus x X)). assert (S1 := SZ x Hx). assert (PX := nrm_ge0 N x). fold a.
    assert (M : ((a + nrm N x) * nrm N (vminus x X) <= (2 * a + 1) * rho)%R) by (apply Rmult_le_compat; lra).
    apply (Rmult_le_compat_l (K2 * G)) in M; [|apply Rmult_le_pos; lra]. unfold t3 in U3. lra.
  - fold a. unfold t2 in U2. assert (M : ((3 * a + 4 * rho) * rho <= (3 * a + 4) * rho)%R) by (apply Rmult_le_compat_r; lra).
    apply (Rmult_le_compat_l (2 * (K0 * G))) in M; [|apply Rmult_le_pos; [lra|apply Rmult_le_pos; lra]]. lra.
Qed.

(** Around a regular solution the equation has no other solution. *)
Theorem C99_solution_isolated :
  forall s X, regular_solution s X -> exists rho, (0 < rho)%R /\
  forall Y, nonlinear_solution s Y -> (nrm (s_M s) (vminus Y X) <= rho)%R -> veq (s_M s) Y X.
Proof.
  intros s X HR. assert (HX := proj1 HR). destruct (near_regular s X HR) as (K & K2 & G & rho & HK & HK2 & HG0 & [R0 R1] & HG & HS & _ & HQ). exists rho. split; [exact R0|]. intros Y HY HD.
  assert (Z : veq (s_M s) (kjac (s_M s) (s_A s) (gk s) Y (vminus Y Y)) (kfun (s_M s) (s_A s) (rhs s) (gk s) Y)).
  { intros k Hk. rewrite (solution_kfun s Y HY k Hk). unfold kjac. rewrite mv_vminus. unfold vminus. replace (Y k - Y k)%C with (RtoC 0) by ring. rewrite Cconj_RtoC. ring. }
  assert (D := newton_step (s_M s) (s_A s) (rhs s) (gk s) G HG HG0 K X Y Y (Rlt_le _ _ HK) (solution_kfun s X HX) (HS Y HD) Z).
  assert (P := nrm_ge0 (s_M s) (vminus Y X)). assert (PX := nrm_ge0 (s_M s) X). assert (KG : (0 <= K * G)%R) by (apply Rmult_le_pos; lra).
  set (y := nrm (s_M s) (vminus Y X)) in *.
  assert (M : (K * G * (3 * nrm (s_M s) X + 4 * y) * y <= K * G * (3 * nrm (s_M s) X + 4 * rho) * rho)%R).
  { apply Rmult_le_compat; [apply Rmult_le_pos; lra|exact P|apply Rmult_le_compat_l; lra|exact HD]. }
  assert (D' : (y <= 1 / 2 * y)%R). { eapply Rle_trans; [exact D|]. replace (K * G * (3 * nrm (s_M s) X + 4 * y) * y ^ 2)%R with (K * G * (3 * nrm (s_M s) X + 4 * y) * y * y)%R by ring. apply Rmult_le_compat_r; lra. }
  intros k Hk. assert (E := nrm_eq0 (s_M s) (vminus Y X) ltac:(fold y; lra) k Hk). unfold vminus in E. replace (Y k) with (Y k - X k + X k)%C by ring. rewrite E. ring.
Qed.

Lemma newton_call e av s Es thr n s' a b Y conv : solve_fields_nl e av Es "newton" thr n s = (s', Ok (a, b, Y, conv)) ->
  exists s1 E0 s2 E l s4, start_field e Ez Es s = (s1, Ok E0) /\ newton_loop e thr n E0 s1 = (s2, Ok (E, l)) /\ List.length l <= n /\
    solve_fields e true false (compute_nl E s2) = (s4, Ok (a, b, Y)) /\ same_problem s1 s2 /\ s_pol s = PolEz.
Proof.
  unfold solve_fields_nl, run_solver_nl. change (String.eqb "newton" "born") with false. change (String.eqb "newton" "newton") with true. cbv iota. unfold newton_solve.
  destruct (s_pol s); [|discriminate]. destruct (start_field e Ez Es s) as [s1 [E0|]] eqn:E1; [|discriminate].
  destruct (newton_loop e thr n E0 s1) as [s2 [[E l]|]] eqn:E2; [|discriminate].
  destruct (solve_fields e true false (compute_nl E s2)) as [s4 [F|]] eqn:E3; [|discriminate]. destruct n as [|n]; [discriminate|]. intro H. injection H as _ HF _. subst F.
  exists s1, E0, s2, E, l, s4. split; [reflexivity|]. split; [exact E2|].
  assert (SP := E2). apply newton_loop_spec in SP as [(Hn & _)|(Ep & d & l0 & c & _ & _ & -> & _ & _ & _ & _ & HL & _)]; [lia|]. split; [exact HL|]. split; [exact E3|]. split; [|reflexivity].
  unfold same_problem. repeat split; reflexivity.
Qed.
(** the solve after the loop *)
Lemma last_solve e s E K2 s4 a b Y : solver_exact e -> (forall h, (nrm (s_M s) h <= K2 * nrm (s_M s) (kres (s_M s) (s_A s) (gk s) E h))%R) ->
  solve_fields e true false (compute_nl E s) = (s4, Ok (a, b, Y)) -> veq (s_M s) (kres (s_M s) (s_A s) (gk s) E Y) (rhs s).
Proof.
  intros He HS H. apply solve_nl_inv in H as (_ & _ & H).
  assert (HN : nonsingular (s_M s) (nl_matrix s E)).
  { apply (nonsingular_ext _ (kmat (s_A s) (gk s) E)); [intros i j Hi Hj; symmetry; apply nl_matrix_kmat; assumption|]. apply injective_nonsingular. intros x Hx. apply nrm_eq0.
    assert (Q := HS x). rewrite (nrm_zero _ (kres (s_M s) (s_A s) (gk s) E x)) in Q by exact Hx. assert (P := nrm_ge0 (s_M s) x). lra. }
  apply (solver_direct_correct _ _ _ _ _ _ He HN) in H. rewrite solves_mv in H. intros k Hk. rewrite <- (H k Hk). symmetry. apply (mv_ext _ _ _ Y Y (nl_matrix_kmat s E) (fun _ _ => eq_refl) k Hk).
Qed.
Lemma gk_same s s1 k : same_problem s s1 -> gk s1 k = gk s k.
Proof.
  intro HS. unfold gk. unfold same_problem in HS. destruct HS as (E1 & E2 & _ & _ & _ & _ & _ & _ & _ & _ & E3 & _ & _ & _ & E4 & _). rewrite E1, E2, E3, E4. reflexivity.
Qed.

(** From every starting field near a regular solution, n iterations leave an error below a constant times
    2^-(2^n); an iteration that is stopped by the threshold leaves an error of the order of its square. *)
Theorem C99_newton_quadratic :
  forall e s X, solver_exact e -> real_solver_exact e -> regular_solution s X ->
  exists rho c, (0 < rho)%R /\ forall av F0 thr n s' a b Y conv, (nrm (s_M s) (vminus F0 X) <= rho)%R ->
    solve_fields_nl e av (Some F0) "newton" thr n s = (s', Ok (a, b, Y, conv)) ->
    (nrm (s_M s) (vminus Y X) <= c * (thr ^ 2 + (1 / 2) ^ (2 ^ n)))%R /\
    (thr <= 0 -> (nrm (s_M s) (vminus Y X) <= c * (1 / 2) ^ (2 ^ n))%R)%R.
Proof.
  intros e s X He Hr HR. assert (HX := proj1 HR). destruct (near_regular s X HR) as (K & K2 & G & rho & HK & HK2 & HG0 & [R0 R1] & HG & HS & HS2 & HQ).
  set (N := s_M s) in *. set (x := nrm N X) in *. assert (X0 : (0 <= x)%R) by apply nrm_ge0. set (cc := (K * G * (3 * x + 4 * rho))%R) in *.
  assert (KG : (0 <= K * G)%R) by (apply Rmult_le_pos; lra). assert (C0 : (0 <= cc)%R) by (unfold cc; apply Rmult_le_pos; lra).
  set (L := (K2 * (G * (2 * x + 1) * x))%R). assert (L0 : (0 <= L)%R) by (unfold L; apply Rmult_le_pos; [lra|]; apply Rmult_le_pos; [apply Rmult_le_pos; lra|exact X0]).
  exists rho, (L * (2 + 4 * cc * (x + 1) ^ 2))%R. split; [exact R0|]. intros av F0 thr n s' a b Y conv HF H.
  apply newton_call in H as (s1 & E0 & s2 & E & l & s4 & ES & EL & HL & EF & SP & _). injection ES as <- <-.
  destruct (newton_loop_error e X K G rho thr n Hr _ _ _ _ _ (Rlt_le _ _ HK) HG0 HG HX HS ltac:(fold N x cc; lra) HF EL) as (I1 & I2 & I3). fold N x cc in I1, I2, I3.
  set (d0 := nrm N (vminus F0 X)) in *. set (dE := nrm N (vminus E X)) in *. assert (D0 : (0 <= d0)%R) by apply nrm_ge0. assert (DE : (0 <= dE)%R) by apply nrm_ge0.
  (* the last solve *)
  assert (SF : veq N (kres N (s_A s) (gk s) E Y) (rhs s)).
  { destruct (same_rhs _ _ SP) as (ER & EM & _). assert (EA : s_A s2 = s_A s) by apply (same_system _ _ SP).
    assert (KE : forall h k, k < N -> kres N (s_A s2) (gk s2) E h k = kres N (s_A s) (gk s) E h k) by (intros h k Hk; rewrite !kres_eq by exact Hk; rewrite EA, (gk_same s s2 k SP); reflexivity).
    assert (Q : veq (s_M s2) (kres (s_M s2) (s_A s2) (gk s2) E Y) (rhs s2)).
    { apply (last_solve e s2 E K2 s4 a b Y He); [|exact EF]. rewrite EM. fold N. intro h. rewrite (nrm_ext N _ _ (KE h)). apply HS2. unfold dE in I2. lra. }
    rewrite EM, ER in Q. fold N in Q. intros k Hk. rewrite <- (KE Y k Hk). apply Q, Hk. }
  assert (KX : ksol N (s_A s) (rhs s) (gk s) X) by (apply solution_ksol, HX).
  assert (LS := kres_last N (s_A s) (rhs s) (gk s) G HG HG0 X E Y K2 ltac:(lra) (HS2 E ltac:(fold N dE; lra)) KX SF). fold x dE in LS.
  assert (SE : (nrm N E <= x + 1)%R) by (assert (T := nrm_sub_ge N E X); fold x dE in T; lra).
  assert (LS2 : (nrm N (vminus Y X) <= L * dE)%R).
  { eapply Rle_trans; [exact LS|]. apply Rmult_le_compat_r; [exact DE|]. unfold L. apply Rmult_le_compat_l; [lra|]. apply Rmult_le_compat_r; [exact X0|]. apply Rmult_le_compat_l; [exact HG0|]. lra. }
  (* the loop *)
  set (m := List.length l) in *.
  assert (QM : (dE <= 2 * (1 / 2) ^ (2 ^ m))%R).
  { eapply Rle_trans; [exact I1|]. assert (Q1 : (0 <= cc * d0 <= 1 / 2)%R). { split; [apply Rmult_le_pos; assumption|]. eapply Rle_trans; [apply Rmult_le_compat_l; [exact C0|exact HF]|exact HQ]. }
    assert (Q2 : ((cc * d0) ^ (2 ^ m - 1) <= (1 / 2) ^ (2 ^ m - 1))%R) by (apply pow_incr; exact Q1). assert (Q3 : (0 <= (cc * d0) ^ (2 ^ m - 1))%R) by (apply pow_le; lra).
    assert (M1 : 1 <= 2 ^ m) by (clear; induction m; simpl; lia).
    replace (2 * (1 / 2) ^ (2 ^ m))%R with ((1 / 2) ^ (2 ^ m - 1))%R by (replace (2 ^ m) with (S (2 ^ m - 1)) at 2 by lia; simpl; lra).
    assert (Q4 : (0 <= (1 / 2) ^ (2 ^ m - 1))%R) by (apply pow_le; lra). nra. }
  assert (PN : (0 <= (1 / 2) ^ (2 ^ n))%R) by (apply pow_le; lra). assert (PT : (0 <= thr ^ 2)%R) by apply pow2_ge_0. assert (PC : (0 <= cc * (x + 1) ^ 2)%R) by (apply Rmult_le_pos; [exact C0|apply pow2_ge_0]).
  assert (CASE : (m = n /\ dE <= 2 * (1 / 2) ^ (2 ^ n))%R \/ (0 < thr \/ dE <= 0)%R /\ (dE <= 4 * cc * (x + 1) ^ 2 * thr ^ 2)%R).
  { destruct (Nat.eq_dec m n) as [Em|Em]; [left; split; [exact Em|]; rewrite <- Em; exact QM|right].
    destruct (I3 ltac:(lia)) as (Ep & B1 & B2 & B3). set (dp := nrm N (vminus Ep X)) in *. assert (DP : (0 <= dp)%R) by apply nrm_ge0. fold dE in B3.
    assert (T := nrm_sub N Ep E X). rewrite (nrm_sub_sym N Ep E) in T. fold dp dE in T. assert (NE := nrm_ge0 N E). assert (NP := nrm_ge0 N (vminus E Ep)).
    assert (Q : (cc * dp <= 1 / 2)%R) by (eapply Rle_trans; [apply Rmult_le_compat_l; [exact C0|exact B1]|exact HQ]).
    assert (B4 : (dE <= 1 / 2 * dp)%R) by (eapply Rle_trans; [exact B3|]; simpl; nra).
    assert (B5 : (dp <= 2 * (thr * nrm N E))%R) by lra.
    split.
    - destruct (Rlt_dec 0 thr) as [Lt|Lt]; [left; exact Lt|right]. assert (thr * nrm N E <= 0)%R by nra. assert (dp = 0)%R by lra. rewrite H0 in B4. lra.
    - destruct (Rlt_dec 0 thr) as [Lt|Lt].
      + assert (B6 : (dp <= 2 * thr * (x + 1))%R) by nra. assert (B7 : (dp ^ 2 <= (2 * thr * (x + 1)) ^ 2)%R) by (apply pow_incr; lra). apply (Rmult_le_compat_l cc) in B7; [|exact C0]. lra.
      + assert (thr * nrm N E <= 0)%R by nra. assert (dE <= 0)%R by lra. assert (0 <= 4 * cc * (x + 1) ^ 2 * thr ^ 2)%R; [|lra]. apply Rmult_le_pos; [lra|exact PT]. }
  assert (FIN : forall u, (0 <= u)%R -> (dE <= (2 + 4 * cc * (x + 1) ^ 2) * u)%R -> (nrm N (vminus Y X) <= L * (2 + 4 * cc * (x + 1) ^ 2) * u)%R).
  { intros u _ Hu. eapply Rle_trans; [exact LS2|]. rewrite Rmult_assoc. apply Rmult_le_compat_l; [exact L0|exact Hu]. }
  split; [|intro Ht]; apply FIN; try lra.
  - destruct CASE as [[_ D]|[_ D]]; nra.
  - destruct CASE as [[_ D]|[[Lt|D] _]]; [nra|lra|nra].
Qed.

(** ** Weak nonlinearity *)

(** From the linear field of a weakly nonlinear simulation: n Newton iterations leave a relative error of at
    most 10^-(2 * 2^n). *)
Theorem C99_newton_weak :
  forall e av s K thr n s' a b Y conv X, solver_exact e -> real_solver_exact e -> weakly_nonlinear s K -> s_fields s Ez = None ->
  nonlinear_solution s X -> in_ball s K X -> (thr <= 0)%R ->
  solve_fields_nl e av None "newton" thr n s = (s', Ok (a, b, Y, conv)) ->
  (nrm (s_M s) (vminus Y X) <= (1 / 100) ^ (2 ^ n) * nrm (s_M s) X)%R.
Proof.
  intros e av s K thr n s' a b Y conv X He Hr HW HF HX RX Ht H.
  apply newton_call in H as (s1 & E0 & s2 & E & l & s4 & ES & EL & HL & EF & SP12 & Hp).
  assert (FS := fresh_start e s K s1 E0 He HW). rewrite Hp in FS. specialize (FS HF ES).
  assert (SP := start_field_same _ _ _ _ _ _ ES). destruct (same_rhs _ _ SP) as (ER & EM & _ & _). assert (EA : s_A s1 = s_A s) by apply (same_system _ _ SP).
  assert (HW1 := HW). apply weak_abstract in HW1 as (HK0 & HK & G & HG & HG0 & HWG).
  set (N := s_M s) in *. set (r := (2 * K * nrm N (rhs s))%R) in *.
  assert (P := nrm_ge0 N (rhs s)). assert (Q : (0 <= r)%R) by (unfold r; nra).
  assert (KX := HX). apply solution_ksol in KX. unfold in_ball in RX. fold N r in RX.
  assert (SX := weak_size N (s_A s) (rhs s) (gk s) K G HK0 HK HG HG0 HWG X X RX KX). fold r in SX.
  assert (Z : (nrm N (fun _ => RtoC 0) <= r)%R) by (rewrite nrm_zero by reflexivity; exact Q).
  assert (CO := weak_contract N (s_A s) (rhs s) (gk s) K G HK0 HK HG HG0 HWG _ X E0 X Z SX FS KX SX).
  assert (EX : nrm N (vminus (fun _ => RtoC 0) X) = nrm N X) by (rewrite nrm_sub_sym; apply nrm_ext; intros k _; unfold vminus; ring). rewrite EX in CO.
  set (x := nrm N X) in *. assert (X0 : (0 <= x)%R) by apply nrm_ge0.
  (* stability of the derivative in the ball *)
  assert (KG : (0 <= K * G)%R) by (apply Rmult_le_pos; lra).
  assert (HJ : forall y, (nrm N (vminus y X) <= 1 / 10 * x)%R -> forall h, (nrm N h <= 16 / 13 * K * nrm N (kjac N (s_A s) (gk s) y h))%R).
  { intros y Hy h. assert (SY : (nrm N y <= r)%R) by (assert (T := nrm_sub_ge N y X); fold x in T; lra). assert (PY := nrm_ge0 N y).
    replace (16 / 13 * K)%R with (K / (1 - 3 / 16))%R by field. apply (kjac_stable_near N (s_A s) (gk s) G HG HG0 (fun _ => RtoC 0) y K (3 / 16)); [lra| | |lra].
    - intro h0. rewrite (nrm_ext N _ _ (kjac_zero N (s_A s) (gk s) h0)). apply HK.
    - rewrite (nrm_zero N (fun _ => RtoC 0)) by reflexivity. rewrite (nrm_ext N (vminus y (fun _ => RtoC 0)) y) by (intros k _; unfold vminus; ring).
      assert (M : (nrm N y * nrm N y <= r * r)%R) by (apply Rmult_le_compat; lra). apply (Rmult_le_compat_l (K * G)) in M; [|exact KG]. lra. }
  assert (HQ : (16 / 13 * K * G * (3 * x + 4 * (1 / 10 * x)) * (1 / 10 * x) <= 1 / 100)%R).
  { assert (M : (x * x <= 8 / 15 * r * (8 / 15 * r))%R) by (apply Rmult_le_compat; lra). apply (Rmult_le_compat_l (K * G)) in M; [|exact KG]. lra. }
  (* the loop, in the state after the linear solve *)
  assert (KJ : forall y h k, k < N -> kjac N (s_A s1) (gk s1) y h k = kjac N (s_A s) (gk s) y h k) by (intros y h k Hk; unfold kjac; rewrite EA, (gk_same s s1 k SP); reflexivity).
  destruct (newton_loop_error e X (16 / 13 * K) G (1 / 10 * x) thr n Hr E0 s1 s2 E l) as (I1 & I2 & I3).
  - lra.
  - exact HG0.
  - rewrite EM. intros k Hk. rewrite (gk_same s s1 k SP). apply HG, Hk.
  - exact (nonlinear_solution_same _ _ _ SP HX).
  - rewrite EM. intros y Hy h. rewrite (nrm_ext N _ _ (KJ y h)). apply HJ, Hy.
  - rewrite EM. fold N x. lra.
  - rewrite EM. exact CO.
  - exact EL.
  - rewrite EM in I1, I2, I3. fold N x in I1, I2, I3.
    assert (Hm : List.length l = n).
    { destruct (Nat.eq_dec (List.length l) n) as [Em|Em]; [exact Em|]. exfalso. clear I1 I2 I3. apply newton_loop_spec in EL as [(Hn & -> & _)|(Ep & d & l0 & c & -> & Ec & _ & _ & _ & _ & _ & _ & HT)]; [simpl in Em; lia|].
      specialize (HT ltac:(lia)). rewrite Ec in HT. unfold convergence, xdiv in HT. destruct (Req_EM_T _ 0) as [Z0|Z0]; [destruct (Req_EM_T _ 0); discriminate|]. cbn in HT. destruct (Rlt_dec _ _) as [Lt|]; [|discriminate].
      match type of Lt with (?u / ?v < _)%R => assert (0 <= u / v)%R by (apply Rdiv_le_0_compat; [apply nrm_ge0|assert (V := nrm_ge0 (s_M s1) E); unfold nrm in *; lra]) end. lra. }
    rewrite Hm in I1. set (d0 := nrm N (vminus E0 X)) in *. assert (D0 : (0 <= d0)%R) by apply nrm_ge0. set (dE := nrm N (vminus E X)) in *. assert (DE : (0 <= dE)%R) by apply nrm_ge0.
    assert (SE : (nrm N E <= r)%R) by (assert (T := nrm_sub_ge N E X); fold x dE in T; lra).
    (* the last solve *)
    assert (SPT : same_problem s s2) by (eapply same_trans; eassumption). destruct (same_rhs _ _ SPT) as (ER2 & EM2 & _). assert (EA2 : s_A s2 = s_A s) by apply (same_system _ _ SPT).
    assert (SF : veq N (kres N (s_A s) (gk s) E Y) (rhs s)).
    { assert (KE : forall h k, k < N -> kres N (s_A s2) (gk s2) E h k = kres N (s_A s) (gk s) E h k) by (intros h k Hk; rewrite !kres_eq by exact Hk; rewrite EA2, (gk_same s s2 k SPT); reflexivity).
      assert (QQ : veq (s_M s2) (kres (s_M s2) (s_A s2) (gk s2) E Y) (rhs s2)).
      { apply (last_solve e s2 E (16 / 15 * K) s4 a b Y He); [|exact EF]. rewrite EM2. fold N. intro h. rewrite (nrm_ext N _ _ (KE h)). apply (weak_stable N (s_A s) (rhs s) (gk s) K G HK0 HK HG HG0 HWG E h SE). }
      rewrite EM2, ER2 in QQ. fold N in QQ. intros k Hk. rewrite <- (KE Y k Hk). apply QQ, Hk. }
    assert (LS := weak_contract N (s_A s) (rhs s) (gk s) K G HK0 HK HG HG0 HWG E X Y X SE SX SF KX SX). fold dE in LS.
    assert (QB : (0 <= 16 / 13 * K * G * (3 * x + 4 * (1 / 10 * x)) * d0 <= 1 / 100)%R).
    { assert (CC : (0 <= 16 / 13 * K * G * (3 * x + 4 * (1 / 10 * x)))%R) by (apply Rmult_le_pos; [|lra]; rewrite Rmult_assoc; apply Rmult_le_pos; lra).
      split; [apply Rmult_le_pos; assumption|]. eapply Rle_trans; [apply Rmult_le_compat_l; [exact CC|exact CO]|exact HQ]. }
    assert (QP : ((16 / 13 * K * G * (3 * x + 4 * (1 / 10 * x)) * d0) ^ (2 ^ n - 1) <= (1 / 100) ^ (2 ^ n - 1))%R) by (apply pow_incr; exact QB).
    assert (M1 : 1 <= 2 ^ n) by (clear; induction n; simpl; lia).
    replace ((1 / 100) ^ (2 ^ n))%R with (1 / 100 * (1 / 100) ^ (2 ^ n - 1))%R by (replace (2 ^ n) with (S (2 ^ n - 1)) at 2 by lia; reflexivity).
    set (p := ((1 / 100) ^ (2 ^ n - 1))%R) in *. assert (P0 : (0 <= p)%R) by (apply pow_le; lra). 
    assert (F1 : (dE <= p * (1 / 10 * x))%R) by (eapply Rle_trans; [exact I1|]; apply Rmult_le_compat; [apply pow_le; apply QB|exact D0|exact QP|exact CO]). lra.
Qed.

Example C99_met : solver_exact ex_env_mkl /\ real_solver_exact ex_env_mkl /\ regular_solution ex_nl ex_F /\
  exists s' F conv, solve_fields_nl ex_env_mkl false (Some ex_F) "newton" 0 3 ex_nl = (s', Ok (F, conv)).
Proof.
  destruct ex_nl_facts as (EM & EP & ES & EL & EO & EE & ED & EA).
  split; [apply ex_mkl_exact|]. split; [apply ex_mkl_real_exact|]. split; [split; [apply ex_nl_solution|split; [apply ex_nl_widely|apply ex_nl_nonsingular]]|].
  destruct (C33_solvers_run_partial ex_env_mkl ex_nl false (Some ex_F) 0 3) as (_ & H & _); [congruence|lia|]. apply H; [exact EP|reflexivity].
Qed.
