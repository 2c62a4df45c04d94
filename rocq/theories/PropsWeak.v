(** C98: weak nonlinearities.  When the nonlinear term is small against the matrix, the nonlinear
    equation has one solution near the linear one, every step of the Born iteration divides the
    distance to it by ten, and the default solver returns it up to its threshold. *)
From Coq Require Import Reals Lra Lia List ZArith Arith Bool String.
From Coquelicot Require Import Coquelicot.
From Verif Require Import Base Linear MCore MSim Spec PCore PSim PropsSolve PropsNl PropsLin PEx PropsIter PropsScan PropsOpt3 PDiff PImpl PWeak.
Import ListNotations.
Local Open Scope nat_scope.

(** ** The specification *)

(** The inverse of the system matrix is bounded by K, and the nonlinear term of any field E is at most
    G |E|^2 with 64 G K^3 |source term|^2 <= 1. *)
Definition weakly_nonlinear (s : sim) (K : R) : Prop :=
  (0 < K)%R /\ (forall x, (nrm (s_M s) x <= K * nrm (s_M s) (mv (s_M s) (s_A s) x))%R) /\
  exists G, (0 <= G)%R /\ (64 * G * K ^ 3 * nrm (s_M s) (rhs s) ^ 2 <= 1)%R /\
    forall E k, k < s_M s -> (Rabs (s_omega s ^ 2 * EPSILON_0 * s_L0 s * s_eps_nl (compute_nl E s) k) <= G * Cmod (E k) ^ 2)%R.

(** the fields considered: twice the size that the linear field can have *)
Definition in_ball (s : sim) (K : R) (E : vec) : Prop := (nrm (s_M s) E <= 2 * K * nrm (s_M s) (rhs s))%R.

(** ** Link with the abstract system *)

Definition gk (s : sim) : rvec := fun k => (s_omega s ^ 2 * EPSILON_0 * s_L0 s * kerr_coef (s_nl s) k (nd_buf (s_eps s) k))%R.

Lemma nl_term s E k : (s_omega s ^ 2 * EPSILON_0 * s_L0 s * s_eps_nl (compute_nl E s) k = gk s k * Cnorm2 (E k))%R.
Proof.
  change (s_eps_nl (compute_nl E s) k) with (sum_eps_nl (s_nl s) E (nd_buf (s_eps s)) k). rewrite sum_eps_nl_coef. unfold gk. ring.
Qed.
Lemma nl_matrix_kmat s E : meq (s_M s) (nl_matrix s E) (kmat (s_A s) (gk s) E).
Proof.
  intros i j Hi Hj. unfold nl_matrix, kmat, mplus, mdiag. rewrite nl_term. reflexivity.
Qed.
Lemma weak_abstract s K : weakly_nonlinear s K ->
  (0 < K)%R /\ stable (s_M s) (s_A s) K /\
  exists G, (forall k, k < s_M s -> (Rabs (gk s k) <= G)%R) /\ (0 <= G)%R /\ (K * G * (2 * K * nrm (s_M s) (rhs s)) ^ 2 <= 1 / 16)%R.
Proof.
  intros (HK0 & HK & G & HG0 & HG & HE). split; [exact HK0|]. split; [exact HK|]. exists G. split; [|split; [exact HG0|]].
  - intros k Hk. assert (H := HE (fun _ => RtoC 1) k Hk). rewrite nl_term in H. rewrite Cmod_1, pow1, Rmult_1_r in H. replace (Cnorm2 (RtoC 1)) with 1%R in H by (rewrite <- Cmod_sq, Cmod_1; ring). rewrite Rmult_1_r in H. exact H.
  - replace (K * G * (2 * K * nrm (s_M s) (rhs s)) ^ 2)%R with (4 * (G * K ^ 3 * nrm (s_M s) (rhs s) ^ 2))%R by ring. lra.
Qed.
Lemma solution_ksol s X : nonlinear_solution s X <-> ksol (s_M s) (s_A s) (rhs s) (gk s) X.
Proof.
  rewrite nonlinear_solution_solves, solves_mv. unfold ksol, kres. split; intros H k Hk; rewrite <- (H k Hk); [symmetry|]; apply (mv_ext _ _ _ X X (nl_matrix_kmat s X) (fun _ _ => eq_refl) k Hk).
Qed.

(** ** One solution *)

Theorem C98_one_solution :
  forall s K, weakly_nonlinear s K ->
  exists X, nonlinear_solution s X /\ in_ball s K X /\ forall Y, nonlinear_solution s Y -> in_ball s K Y -> veq (s_M s) Y X.
Proof.
  intros s K H. apply weak_abstract in H as (HK0 & HK & G & HG & HG0 & HW).
  destruct (ksol_exists (s_M s) (s_A s) (rhs s) (gk s) K G HK0 HK HG HG0 HW) as (X & HX & SX).
  assert (P := nrm_ge0 (s_M s) (rhs s)). assert (Q : (0 <= 2 * K * nrm (s_M s) (rhs s))%R) by nra.
  exists X. split; [apply solution_ksol, HX|]. split; [unfold in_ball; lra|].
  intros Y HY RY. apply solution_ksol in HY. apply (ksol_unique (s_M s) (s_A s) (rhs s) (gk s) K G HK0 HK HG HG0 HW Y X HY HX RY). lra.
Qed.

(** ** One step of the Born iteration *)

Lemma born_step_ok e s K F s2 a b X : solver_exact e -> weakly_nonlinear s K -> in_ball s K F ->
  solve_fields e true false (compute_nl F s) = (s2, Ok (a, b, X)) -> veq (s_M s) (kres (s_M s) (s_A s) (gk s) F X) (rhs s).
Proof.
  intros He HW HF H. apply weak_abstract in HW as (HK0 & HK & G & HG & HG0 & HW). apply solve_nl_inv in H as (_ & _ & H).
  assert (HN : nonsingular (s_M s) (nl_matrix s F)).
  { apply (nonsingular_ext _ (kmat (s_A s) (gk s) F)); [intros i j Hi Hj; symmetry; apply nl_matrix_kmat; assumption|]. eapply weak_nonsingular; eassumption. }
  apply (solver_direct_correct _ _ _ _ _ _ He HN) in H. rewrite solves_mv in H. intros k Hk. rewrite <- (H k Hk). symmetry. apply (mv_ext _ _ _ X X (nl_matrix_kmat s F) (fun _ _ => eq_refl) k Hk).
Qed.
Lemma weak_compute s K F : weakly_nonlinear s K -> weakly_nonlinear (compute_nl F s) K.
Proof. intro H. exact H. Qed.

Lemma born_loop_error e K X thr n : solver_exact e -> forall F s s' a b Y l, weakly_nonlinear s K -> in_ball s K F ->
  nonlinear_solution s X -> in_ball s K X -> born_loop e thr n F s = (s', Ok (Some (a, b, Y), l)) ->
  in_ball s K Y /\ (nrm (s_M s) (vminus Y X) <= (1 / 10) ^ List.length l * nrm (s_M s) (vminus F X))%R /\
  exists c l0, l = l0 ++ [c] /\ forall x, c = Fin x -> (nrm (s_M s) (vminus Y X) <= 1 / 9 * (x * nrm (s_M s) Y))%R.
Proof.
  intro He. induction n as [|n IH]; intros F s s' a b Y l HW HF HX RX H; [discriminate|]. cbn [born_loop] in H.
  destruct (solve_fields e true false (compute_nl F s)) as [s2 [[[a1 b1] X1]|]] eqn:E1; [|discriminate].
  assert (ES := E1). apply solve_nl_inv in ES as (-> & _). change (s_M (compute_nl F s)) with (s_M s) in H.
  assert (ST := born_step_ok _ _ _ _ _ _ _ _ He HW HF E1).
  assert (HW1 := HW). apply weak_abstract in HW1 as (HK0 & HK & G & HG & HG0 & HWG).
  assert (KX := HX). apply solution_ksol in KX. unfold in_ball in *.
  assert (SX := weak_size (s_M s) (s_A s) (rhs s) (gk s) K G HK0 HK HG HG0 HWG X X RX KX).
  assert (S1 := weak_size (s_M s) (s_A s) (rhs s) (gk s) K G HK0 HK HG HG0 HWG F X1 HF ST).
  assert (P := nrm_ge0 (s_M s) (rhs s)). assert (Q : (0 <= 2 * K * nrm (s_M s) (rhs s))%R) by nra.
  assert (CO := weak_contract (s_M s) (s_A s) (rhs s) (gk s) K G HK0 HK HG HG0 HWG F X X1 X HF SX ST KX SX).
  assert (PO := weak_posterior (s_M s) (s_A s) (rhs s) (gk s) K G HK0 HK HG HG0 HWG F X1 X HF ST KX RX).
  assert (LAST : (nrm (s_M s) X1 <= 2 * K * nrm (s_M s) (rhs s))%R /\ (nrm (s_M s) (vminus X1 X) <= (1 / 10) ^ 1 * nrm (s_M s) (vminus F X))%R /\
    exists c l0, [convergence (s_M s) X1 F] = l0 ++ [c] /\ forall x, c = Fin x -> (nrm (s_M s) (vminus X1 X) <= 1 / 9 * (x * nrm (s_M s) X1))%R).
  { split; [lra|]. split; [rewrite pow_1; exact CO|]. exists (convergence (s_M s) X1 F), []. split; [reflexivity|]. intros x Hx.
    unfold convergence, xdiv in Hx. destruct (Req_EM_T (nrm (s_M s) X1) 0) as [Z|Z]; [destruct (Req_EM_T _ 0); discriminate|]. injection Hx as <-.
    replace (nrm (s_M s) (vminus X1 F) / nrm (s_M s) X1 * nrm (s_M s) X1)%R with (nrm (s_M s) (vminus X1 F)) by (field; exact Z). exact PO. }
  destruct (xlt (convergence (s_M s) X1 F) thr).
  - injection H as <- <- <- <- <-. exact LAST.
  - destruct (born_loop e thr n X1 (compute_nl F s)) as [s3 [[[[[a2 b2] X2]|] l2]|]] eqn:E2; [| |discriminate].
    + injection H as <- <- <- <- <-. assert (B1 : (nrm (s_M s) X1 <= 2 * K * nrm (s_M s) (rhs s))%R) by lra. destruct (IH _ _ _ _ _ _ _ (weak_compute s K F HW) B1 HX RX E2) as (I1 & I2 & c & l0 & -> & I3).
      change (s_M (compute_nl F s)) with (s_M s) in *. change (rhs (compute_nl F s)) with (rhs s) in I1. split; [exact I1|]. split.
      * cbn [List.length]. eapply Rle_trans; [exact I2|]. simpl pow. assert (PP : (0 <= (1 / 10) ^ List.length (l0 ++ [c]))%R) by (apply pow_le; lra). set (p := ((1 / 10) ^ List.length (l0 ++ [c]))%R) in *. nra.
      * exists c, (convergence (s_M s) X1 F :: l0). split; [reflexivity|exact I3].
    + assert (l2 = []). { destruct n; [injection E2 as _ <-; reflexivity|]. exfalso. clear - E2. cbn [born_loop] in E2.
        destruct (solve_fields _ _ _ _) as [? [[[? ?] ?]|]]; [|discriminate]. destruct (xlt _ _); [discriminate|]. destruct (born_loop _ _ _ _ _) as [? [[[?|] ?]|]]; discriminate. }
      subst l2. injection H as <- <- <- <- <-. exact LAST.
Qed.

Lemma born_loop_record e K thr n : solver_exact e -> forall E F s s' a b Y l, weakly_nonlinear s K -> (nrm (s_M s) E <= 8 / 15 * (2 * K * nrm (s_M s) (rhs s)))%R ->
  veq (s_M s) (kres (s_M s) (s_A s) (gk s) E F) (rhs s) -> (0 < nrm (s_M s) F)%R ->
  born_loop e thr n F s = (s', Ok (Some (a, b, Y), l)) ->
  forall i, i < List.length l -> exists c, List.nth i l NaN = Fin c /\ (0 <= c <= (1 / 10) ^ (i + 1) * (nrm (s_M s) (vminus F E) / nrm (s_M s) F))%R.
Proof.
  intro He. induction n as [|n IH]; intros E F s s' a b Y l HW HE HEF PF H; [discriminate|]. cbn [born_loop] in H.
  destruct (solve_fields e true false (compute_nl F s)) as [s2 [[[a1 b1] X1]|]] eqn:E1; [|discriminate].
  assert (ES := E1). apply solve_nl_inv in ES as (-> & _). change (s_M (compute_nl F s)) with (s_M s) in H.
  assert (HW1 := HW). apply weak_abstract in HW1 as (HK0 & HK & G & HG & HG0 & HWG).
  assert (P := nrm_ge0 (s_M s) (rhs s)). assert (Q : (0 <= 2 * K * nrm (s_M s) (rhs s))%R) by nra.
  assert (SF := weak_size (s_M s) (s_A s) (rhs s) (gk s) K G HK0 HK HG HG0 HWG E F ltac:(lra) HEF).
  assert (BF : in_ball s K F) by (unfold in_ball; lra). assert (ST := born_step_ok _ _ _ _ _ _ _ _ He HW BF E1).
  destruct (weak_record (s_M s) (s_A s) (rhs s) (gk s) K G HK0 HK HG HG0 HWG E F X1 HE HEF ST PF) as [P1 R1].
  assert (C0 : convergence (s_M s) X1 F = Fin (nrm (s_M s) (vminus X1 F) / nrm (s_M s) X1)). { unfold convergence, xdiv. destruct (Req_EM_T _ 0) as [Z|Z]; [lra|reflexivity]. }
  assert (C1 : (0 <= nrm (s_M s) (vminus X1 F) / nrm (s_M s) X1)%R) by (apply Rdiv_le_0_compat; [apply nrm_ge0|exact P1]).
  assert (FIRST : forall i t, i = 0 -> exists c, List.nth i (convergence (s_M s) X1 F :: t) NaN = Fin c /\ (0 <= c <= (1 / 10) ^ (i + 1) * (nrm (s_M s) (vminus F E) / nrm (s_M s) F))%R).
  { intros i t ->. cbn [List.nth]. rewrite C0. eexists. split; [reflexivity|]. split; [exact C1|]. simpl. lra. }
  destruct (xlt (convergence (s_M s) X1 F) thr).
  - injection H as <- <- <- <- <-. intros i Hi. apply FIRST. cbn in Hi. lia.
  - destruct (born_loop e thr n X1 (compute_nl F s)) as [s3 [[[[[a2 b2] X2]|] l2]|]] eqn:E2; [| |discriminate].
    + injection H as <- <- <- <- <-. assert (I := IH _ _ _ _ _ _ _ _ (weak_compute s K F HW) SF ST P1 E2). change (s_M (compute_nl F s)) with (s_M s) in I.
      intros [|i] Hi; [apply FIRST; reflexivity|]. cbn [List.nth]. destruct (I i ltac:(cbn in Hi; lia)) as (c & -> & I1 & I2). exists c. split; [reflexivity|]. split; [exact I1|].
      eapply Rle_trans; [exact I2|]. replace (S i + 1) with (S (i + 1)) by lia. simpl pow. assert (PP : (0 <= (1 / 10) ^ (i + 1))%R) by (apply pow_le; lra). set (p := ((1 / 10) ^ (i + 1))%R) in *.
      rewrite (Rmult_comm (1 / 10) p), Rmult_assoc. apply Rmult_le_compat_l; [exact PP|exact R1].
    + assert (l2 = []). { destruct n; [injection E2 as _ <-; reflexivity|]. exfalso. clear - E2. cbn [born_loop] in E2.
        destruct (solve_fields _ _ _ _) as [? [[[? ?] ?]|]]; [|discriminate]. destruct (xlt _ _); [discriminate|]. destruct (born_loop _ _ _ _ _) as [? [[[?|] ?]|]]; discriminate. }
      subst l2. injection H as <- <- <- <- <-. intros i Hi. apply FIRST. cbn in Hi. lia.
Qed.

(** ** What solve_fields_nl returns *)

Lemma weak_same s s1 K : same_problem s s1 -> weakly_nonlinear s K -> weakly_nonlinear s1 K.
Proof.
  intros HS (HK0 & HK & G & HG0 & HG & HE). destruct (same_rhs _ _ HS) as (ER & EM & _ & _). destruct (same_system _ _ HS) as (_ & EA & _).
  split; [exact HK0|]. rewrite EM, EA. split; [exact HK|]. exists G. split; [exact HG0|]. rewrite ER. split; [exact HG|].
  intros E k Hk. assert (H := HE E k Hk). rewrite nl_term in H |- *. replace (gk s1 k) with (gk s k); [exact H|]. unfold gk.
  unfold same_problem in HS. destruct HS as (E1 & E2 & _ & _ & _ & _ & _ & _ & _ & _ & E3 & _ & _ & _ & E4 & _). rewrite E1, E2, E3, E4. reflexivity.
Qed.
Lemma same_ball s s1 K F : same_problem s s1 -> in_ball s K F -> in_ball s1 K F.
Proof. intros HS H. destruct (same_rhs _ _ HS) as (ER & EM & _ & _). unfold in_ball. rewrite ER, EM. exact H. Qed.

Lemma born_call e av s Es thr n s' a b Y conv : solve_fields_nl e av Es "born" thr n s = (s', Ok (a, b, Y, conv)) ->
  exists s1 F0 s2 l, start_field e (pol_comp (s_pol s)) Es s = (s1, Ok F0) /\ born_loop e thr n F0 s1 = (s2, Ok (Some (a, b, Y), l)) /\ conv = conv_array n l.
Proof.
  unfold solve_fields_nl, run_solver_nl. rewrite String.eqb_refl. unfold born_solve.
  destruct (start_field e (pol_comp (s_pol s)) Es s) as [s1 [F0|]] eqn:E1; [|discriminate].
  destruct (born_loop e thr n F0 s1) as [s2 [[[F|] l]|]] eqn:E2; [| discriminate|discriminate].
  intro H. injection H as _ H1 H2. subst F conv. exists s1, F0, s2, l. auto.
Qed.
Lemma fresh_start e s K s1 F0 : solver_exact e -> weakly_nonlinear s K -> s_fields s (pol_comp (s_pol s)) = None ->
  start_field e (pol_comp (s_pol s)) None s = (s1, Ok F0) -> veq (s_M s) (kres (s_M s) (s_A s) (gk s) (fun _ => RtoC 0) F0) (rhs s).
Proof.
  intros He HW HF H. unfold start_field in H. rewrite HF in H.
  destruct (solve_fields e false false s) as [s2 [[[a b] X]|]] eqn:E; [|discriminate]. injection H as -> ->.
  apply solve_fields_lin_state in E as [_ [[E _]|(_ & X & HX & E)]]; [discriminate|]. cbv zeta in E.
  assert (EX : F0 = X) by (destruct E as [_ E]; injection E; auto || (destruct E; congruence)). subst X.
  apply weak_abstract in HW as (HK0 & HK & G & HG & HG0 & HWG).
  assert (P := nrm_ge0 (s_M s) (rhs s)). assert (Q : (0 <= 2 * K * nrm (s_M s) (rhs s))%R) by nra.
  assert (Z : (nrm (s_M s) (fun _ => RtoC 0) <= 2 * K * nrm (s_M s) (rhs s))%R) by (rewrite nrm_zero by reflexivity; exact Q).
  assert (EQ : meq (s_M s) (s_A s) (kmat (s_A s) (gk s) (fun _ => RtoC 0))).
  { intros i j _ _. unfold kmat, mplus, mdiag. destruct (Nat.eqb i j); [|ring]. replace (Cnorm2 (RtoC 0)) with 0%R by (rewrite <- Cmod_sq, Cmod_0; ring). rewrite Rmult_0_r. ring. }
  assert (HN : nonsingular (s_M s) (s_A s)).
  { apply (nonsingular_ext _ (kmat (s_A s) (gk s) (fun _ => RtoC 0))); [intros i j Hi Hj; symmetry; apply EQ; assumption|]. eapply weak_nonsingular; eassumption. }
  apply (solver_direct_correct _ _ _ _ _ _ He HN) in HX. rewrite solves_mv in HX. intros k Hk. rewrite <- (HX k Hk). symmetry. apply (mv_ext _ _ _ F0 F0 EQ (fun _ _ => eq_refl) k Hk).
Qed.

Lemma never_stops e thr n F s s' a b Y l : (thr <= 0)%R -> born_loop e thr n F s = (s', Ok (Some (a, b, Y), l)) -> List.length l = n.
Proof.
  intros Ht H. apply born_loop_spec in H as (Fp & l0 & c & EL & Ec & _ & _ & _ & HL & HS & _).
  destruct (Nat.eq_dec (List.length l) n) as [E|E]; [exact E|]. exfalso. specialize (HS ltac:(lia)). rewrite Ec in HS. unfold convergence, xdiv in HS.
  destruct (Req_EM_T _ 0) as [Z|Z]; [destruct (Req_EM_T _ 0); discriminate|]. cbn in HS. destruct (Rlt_dec _ _) as [L|]; [|discriminate].
  assert (Q : (0 <= nrm (s_M s) (vminus Y Fp) / nrm (s_M s) Y)%R); [|lra]. assert (P := nrm_ge0 (s_M s) Y). apply Rdiv_le_0_compat; [apply nrm_ge0|lra].
Qed.

(** With a threshold of zero or less the loop makes all its steps; each divides the distance to the
    solution by ten, from any starting field of the ball. *)
Theorem C98_born_error :
  forall e av s K F0 thr n s' a b Y conv X, solver_exact e -> weakly_nonlinear s K -> in_ball s K F0 ->
  nonlinear_solution s X -> in_ball s K X -> (thr <= 0)%R ->
  solve_fields_nl e av (Some F0) "born" thr n s = (s', Ok (a, b, Y, conv)) ->
  (nrm (s_M s) (vminus Y X) <= (1 / 10) ^ n * nrm (s_M s) (vminus F0 X))%R.
Proof.
  intros e av s K F0 thr n s' a b Y conv X He HW H0 HX RX Ht H. apply born_call in H as (s1 & F1 & s2 & l & ES & EB & _). injection ES as <- <-.
  assert (EL := never_stops _ _ _ _ _ _ _ _ _ _ Ht EB). destruct (born_loop_error e K X thr n He _ _ _ _ _ _ _ HW H0 HX RX EB) as (_ & HE & _). rewrite EL in HE. exact HE.
Qed.

(** Without a starting field and without stored linear fields, the result of n steps is within
    10^-(n+1) of the solution, relative to the solution. *)
Theorem C98_born_from_the_linear_field :
  forall e av s K thr n s' a b Y conv X, solver_exact e -> weakly_nonlinear s K -> s_fields s (pol_comp (s_pol s)) = None ->
  nonlinear_solution s X -> in_ball s K X -> (thr <= 0)%R ->
  solve_fields_nl e av None "born" thr n s = (s', Ok (a, b, Y, conv)) ->
  (nrm (s_M s) (vminus Y X) <= (1 / 10) ^ (n + 1) * nrm (s_M s) X)%R.
Proof.
  intros e av s K thr n s' a b Y conv X He HW HF HX RX Ht H. apply born_call in H as (s1 & F0 & s2 & l & ES & EB & _).
  assert (FS := fresh_start _ _ _ _ _ He HW HF ES). assert (SP := start_field_same _ _ _ _ _ _ ES). destruct (same_rhs _ _ SP) as (ER & EM & _ & _).
  assert (EL := never_stops _ _ _ _ _ _ _ _ _ _ Ht EB).
  assert (HW1 := HW). apply weak_abstract in HW1 as (HK0 & HK & G & HG & HG0 & HWG).
  assert (P := nrm_ge0 (s_M s) (rhs s)). assert (Q : (0 <= 2 * K * nrm (s_M s) (rhs s))%R) by nra.
  assert (KX := HX). apply solution_ksol in KX. unfold in_ball in RX.
  assert (SX := weak_size (s_M s) (s_A s) (rhs s) (gk s) K G HK0 HK HG HG0 HWG X X RX KX).
  assert (Z : (nrm (s_M s) (fun _ => RtoC 0) <= 2 * K * nrm (s_M s) (rhs s))%R) by (rewrite nrm_zero by reflexivity; exact Q).
  assert (CO := weak_contract (s_M s) (s_A s) (rhs s) (gk s) K G HK0 HK HG HG0 HWG _ X F0 X Z SX FS KX SX).
  assert (EX : nrm (s_M s) (vminus (fun _ => RtoC 0) X) = nrm (s_M s) X).
  { rewrite nrm_sub_sym. apply nrm_ext. intros k _. unfold vminus. ring. }
  rewrite EX in CO.
  assert (SF := weak_size (s_M s) (s_A s) (rhs s) (gk s) K G HK0 HK HG HG0 HWG _ F0 Z FS).
  assert (B0 : in_ball s K F0) by (unfold in_ball; lra).
  destruct (born_loop_error e K X thr n He _ _ _ _ _ _ _ (weak_same _ _ _ SP HW) (same_ball _ _ _ _ SP B0) (nonlinear_solution_same _ _ _ SP HX) (same_ball s s1 K X SP RX) EB) as (_ & HE & _).
  rewrite EL, EM in HE. eapply Rle_trans; [exact HE|]. rewrite pow_add, pow_1, Rmult_assoc. apply Rmult_le_compat_l; [apply pow_le; lra|exact CO].
Qed.

Lemma fresh_loop e s K thr n s1 F0 s2 a b Y l : solver_exact e -> weakly_nonlinear s K -> s_fields s (pol_comp (s_pol s)) = None ->
  (0 < nrm (s_M s) (rhs s))%R -> start_field e (pol_comp (s_pol s)) None s = (s1, Ok F0) -> born_loop e thr n F0 s1 = (s2, Ok (Some (a, b, Y), l)) ->
  (forall i, i < List.length l -> exists c, List.nth i l NaN = Fin c /\ (0 <= c <= (1 / 10) ^ (i + 1))%R) /\
  (forall X, nonlinear_solution s X -> in_ball s K X -> exists c, List.last l NaN = Fin c /\ (nrm (s_M s) (vminus Y X) <= 1 / 9 * (c * nrm (s_M s) Y))%R).
Proof.
  intros He HW HF HB ES EB.
  assert (FS := fresh_start _ _ _ _ _ He HW HF ES). assert (SP := start_field_same _ _ _ _ _ _ ES). destruct (same_rhs _ _ SP) as (ER & EM & _ & _).
  assert (HW1 := HW). apply weak_abstract in HW1 as (HK0 & HK & G & HG & HG0 & HWG).
  assert (Q : (0 <= 2 * K * nrm (s_M s) (rhs s))%R) by nra.
  set (z := fun _ : nat => RtoC 0) in *. assert (Z0 : nrm (s_M s) z = 0%R) by (apply nrm_zero; reflexivity).
  assert (SF := weak_size (s_M s) (s_A s) (rhs s) (gk s) K G HK0 HK HG HG0 HWG z F0 ltac:(lra) FS).
  assert (P0 : (0 < nrm (s_M s) F0)%R).
  { destruct (Rle_lt_or_eq_dec 0 (nrm (s_M s) F0) (nrm_ge0 _ _)) as [L|E]; [exact L|]. exfalso. symmetry in E. assert (V := nrm_eq0 _ _ E).
    assert (nrm (s_M s) (rhs s) = 0)%R; [|lra]. apply nrm_zero. intros k Hk. rewrite <- (FS k Hk). unfold kres. apply csum_0. intros j Hj. rewrite (V j Hj). ring. }
  assert (EA : s_A s1 = s_A s) by apply (same_system _ _ SP).
  assert (EG : forall k, gk s1 k = gk s k).
  { intro k. unfold gk. unfold same_problem in SP. destruct SP as (E1 & E2 & _ & _ & _ & _ & _ & _ & _ & _ & E3 & _ & _ & _ & E4 & _). rewrite E1, E2, E3, E4. reflexivity. }
  assert (REC : forall i, i < List.length l -> exists c, List.nth i l NaN = Fin c /\ (0 <= c <= (1 / 10) ^ (i + 1))%R).
  { intros i Hi. destruct (born_loop_record e K thr n He z F0 s1 s2 a b Y l (weak_same _ _ _ SP HW)) with (i := i) as (c & Ec & B1 & B2).
    - rewrite EM, ER, Z0. lra.
    - rewrite EM, ER, EA. intros k Hk. rewrite <- (FS k Hk). unfold kres. apply mv_ext; [|intros ? ?; reflexivity|exact Hk]. intros p q _ _. unfold kmat, mplus, mdiag. rewrite EG. reflexivity.
    - rewrite EM. exact P0.
    - exact EB.
    - exact Hi.
    - exists c. split; [exact Ec|]. split; [exact B1|]. rewrite EM in B2. replace (nrm (s_M s) (vminus F0 z)) with (nrm (s_M s) F0) in B2 by (apply nrm_ext; intros k _; unfold vminus, z; ring).
      unfold Rdiv in B2 at 2. rewrite Rinv_r, Rmult_1_r in B2 by lra. exact B2. }
  split; [exact REC|]. intros X HX RX. assert (B0 : in_ball s K F0) by (unfold in_ball; lra).
  destruct (born_loop_error e K X thr n He _ _ _ _ _ _ _ (weak_same _ _ _ SP HW) (same_ball _ _ _ _ SP B0) (nonlinear_solution_same _ _ _ SP HX) (same_ball s s1 K X SP RX) EB) as (_ & _ & c & l0 & El & HE).
  rewrite EM in HE. destruct (REC (List.length l0)) as (x & Ex & _); [rewrite El, app_length; simpl; lia|].
  rewrite El, app_nth2, Nat.sub_diag in Ex by lia. cbn in Ex. subst c. exists x. split; [rewrite El; apply List.last_last|]. apply HE. reflexivity.
Qed.
Lemma fresh_stops e s K thr n m s1 F0 s2 a b Y l : solver_exact e -> weakly_nonlinear s K -> s_fields s (pol_comp (s_pol s)) = None ->
  (0 < nrm (s_M s) (rhs s))%R -> start_field e (pol_comp (s_pol s)) None s = (s1, Ok F0) -> born_loop e thr n F0 s1 = (s2, Ok (Some (a, b, Y), l)) ->
  1 <= m <= n -> ((1 / 10) ^ m < thr)%R -> List.length l <= m /\
  (forall X, nonlinear_solution s X -> in_ball s K X -> (nrm (s_M s) (vminus Y X) <= thr / 9 * nrm (s_M s) Y)%R).
Proof.
  intros He HW HF HB ES EB Hm Ht. destruct (fresh_loop _ _ _ _ _ _ _ _ _ _ _ _ He HW HF HB ES EB) as [REC ERR].
  assert (SPEC := EB). apply born_loop_spec in SPEC as (Fp & l0 & c & EL & _ & _ & _ & HFA & HL & HS & _).
  assert (LEN : List.length l = List.length l0 + 1) by (rewrite EL, app_length; reflexivity).
  assert (LM : List.length l <= m).
  { destruct (le_lt_dec (List.length l) m) as [L|L]; [exact L|]. exfalso. destruct (REC (m - 1) ltac:(lia)) as (x & Ex & _ & Bx). replace (m - 1 + 1) with m in Bx by lia.
    rewrite EL, app_nth1 in Ex by lia. rewrite List.Forall_forall in HFA. assert (IN := HFA _ (nth_In l0 NaN (n := m - 1) ltac:(lia))). cbv beta in IN. rewrite Ex in IN. cbn in IN.
    destruct (Rlt_dec x thr); [discriminate|lra]. }
  split; [exact LM|]. intros X HX RX. destruct (ERR X HX RX) as (x & Ex & HE). eapply Rle_trans; [exact HE|].
  assert (BX : (x <= thr)%R).
  { rewrite EL, List.last_last in Ex. subst c. destruct (Nat.eq_dec (List.length l) n) as [E|E].
    - destruct (REC (List.length l0) ltac:(lia)) as (x' & Ex' & _ & B). rewrite EL, app_nth2, Nat.sub_diag in Ex' by lia. cbn in Ex'. injection Ex' as <-. replace (List.length l0 + 1) with m in B by lia. lra.
    - specialize (HS ltac:(lia)). cbn in HS. destruct (Rlt_dec x thr); [lra|discriminate]. }
  assert (P := nrm_ge0 (s_M s) Y). nra.
Qed.

(** Each recorded convergence is at most a tenth of the one before it: the i-th is at most 10^-(i+1). *)
Theorem C98_born_record :
  forall e av s K thr n s' a b Y conv, solver_exact e -> weakly_nonlinear s K -> s_fields s (pol_comp (s_pol s)) = None ->
  (0 < nrm (s_M s) (rhs s))%R -> solve_fields_nl e av None "born" thr n s = (s', Ok (a, b, Y, conv)) ->
  forall i, i < n -> exists c, List.nth i conv NaN = Fin c /\ (0 <= c <= (1 / 10) ^ (i + 1))%R.
Proof.
  intros e av s K thr n s' a b Y conv He HW HF HB H i Hi. apply born_call in H as (s1 & F0 & s2 & l & ES & EB & ->).
  destruct (fresh_loop _ _ _ _ _ _ _ _ _ _ _ _ He HW HF HB ES EB) as [REC _]. unfold conv_array.
  destruct (le_lt_dec (List.length l) i) as [L|L]; [|rewrite app_nth1 by exact L; apply REC, L].
  rewrite app_nth2 by exact L. exists 0%R. split; [|split; [lra|apply pow_le; lra]].
  apply (repeat_spec (n - List.length l)). apply nth_In. rewrite repeat_length. lia.
Qed.

(** The loop stops after at most m steps when 10^-m is below the threshold, and the field it returns is
    within a ninth of the threshold of the solution, relative to the field. *)
Theorem C98_born_stops :
  forall e av s K thr n m s' a b Y conv, solver_exact e -> weakly_nonlinear s K -> s_fields s (pol_comp (s_pol s)) = None ->
  (0 < nrm (s_M s) (rhs s))%R -> 1 <= m <= n -> ((1 / 10) ^ m < thr)%R ->
  solve_fields_nl e av None "born" thr n s = (s', Ok (a, b, Y, conv)) ->
  (forall i, m <= i < n -> List.nth i conv NaN = Fin 0) /\
  (forall X, nonlinear_solution s X -> in_ball s K X -> (nrm (s_M s) (vminus Y X) <= thr / 9 * nrm (s_M s) Y)%R).
Proof.
  intros e av s K thr n m s' a b Y conv He HW HF HB Hm Ht H. apply born_call in H as (s1 & F0 & s2 & l & ES & EB & ->).
  destruct (fresh_stops _ _ _ _ _ _ _ _ _ _ _ _ _ He HW HF HB ES EB Hm Ht) as [LM ERR]. split; [|exact ERR].
  intros i Hi. unfold conv_array. rewrite app_nth2 by lia. apply (repeat_spec (n - List.length l)). apply nth_In. rewrite repeat_length. lia.
Qed.

(** The default solver: it does not raise, for either polarization and with either solver package; it makes
    at most eleven nonlinear solves, and returns the solution within 1e-10 / 9 of its size. *)
Theorem C98_default_solver :
  forall e s K, solver_exact e -> weakly_nonlinear s K -> s_fields s (pol_comp (s_pol s)) = None ->
  nd_size (s_src s) = s_M s -> (0 < nrm (s_M s) (rhs s))%R ->
  exists s' a b Y conv X, solve_fields_nl_default e s = (s', Ok (a, b, Y, conv)) /\ List.length conv = 20 /\
    (forall i, i < 20 -> exists c, List.nth i conv NaN = Fin c /\ (0 <= c <= (1 / 10) ^ (i + 1))%R) /\
    (forall i, 11 <= i < 20 -> List.nth i conv NaN = Fin 0) /\
    nonlinear_solution s X /\ in_ball s K X /\ (nrm (s_M s) (vminus Y X) <= 1 / 10 ^ 10 / 9 * nrm (s_M s) Y)%R.
Proof.
  intros e s K He HW HF HS HB. destruct (born_solve_runs e None (1 / 10 ^ 10) 20 false s HS ltac:(lia)) as (s1 & [[a b] Y] & conv & EB & SP).
  assert (CALL : solve_fields_nl e false None "born" (1 / 10 ^ 10) 20 s = (upd_fields_nl (store3 (s_pol s1) (s_fields_nl s1) (a, b, Y)) s1, Ok (a, b, Y, conv))).
  { unfold solve_fields_nl, run_solver_nl. rewrite String.eqb_refl, EB. reflexivity. }
  assert (MM : 1 <= 11 <= 20) by lia. assert (TH : ((1 / 10) ^ 11 < 1 / 10 ^ 10)%R) by (simpl; lra).
  destruct (C98_born_stops _ _ _ _ _ _ 11 _ _ _ _ _ He HW HF HB MM TH CALL) as [ZER ERR].
  assert (REC := C98_born_record _ _ _ _ _ _ _ _ _ _ _ He HW HF HB CALL).
  destruct (C98_one_solution s K HW) as (X & HX & RX & _).
  assert (HL: List.length conv = 20).
  { apply born_solve_spec in EB as (s1' & F0 & Fp & l0 & c0 & _ & _ & E & _ & _ & _ & HFA & HL & Ht & _). eapply record_of_spec; eassumption. }
  exists (upd_fields_nl (store3 (s_pol s1) (s_fields_nl s1) (a, b, Y)) s1), a, b, Y, conv, X. split.
  - unfold solve_fields_nl_default, solve_fields_nl. rewrite hybrid_unfold, EB, last_conv_nth by (destruct conv; discriminate).
    rewrite HL. change (20 - 1) with 19. rewrite (ZER 19) by lia. assert (XG : xgt (Fin 0) (1 / 10 ^ 10) = false) by (cbn; destruct (Rlt_dec _ _); [|reflexivity]; exfalso; simpl in *; lra).
    rewrite XG. reflexivity.
  - split; [exact HL|]. split; [exact REC|]. split; [exact ZER|]. split; [exact HX|]. split; [exact RX|]. apply ERR; assumption.
Qed.

(** ** Every simulation at low power *)

Lemma Cmod_Ci1 : Cmod Ci = 1%R.
Proof. unfold Cmod, Ci. cbn [fst snd]. replace (0 ^ 2 + 1 ^ 2)%R with 1%R by ring. apply sqrt_1. Qed.

(** Whatever the nonlinearities, a source that is small enough makes the simulation weakly nonlinear. *)
Theorem C98_low_power :
  forall s, nonsingular (s_M s) (s_A s) -> exists K d, (0 < d)%R /\
  forall src, (nrm (s_M s) (nd_buf src) <= d)%R -> weakly_nonlinear (upd_src src s) K.
Proof.
  intros s HN. destruct (nonsingular_stable _ _ HN) as (K & HK0 & HK).
  set (G := rsum (s_M s) (fun k => Rabs (gk s k))). assert (HG0 : (0 <= G)%R) by (apply rsum_ge0; intros; apply Rabs_pos).
  set (q := (64 * G * K ^ 3 * s_omega s ^ 2)%R).
  assert (Q0 : (0 <= q)%R). { unfold q. assert (0 <= K ^ 3)%R by (apply pow_le; lra). assert (0 <= s_omega s ^ 2)%R by apply pow2_ge_0. apply Rmult_le_pos; [apply Rmult_le_pos; [apply Rmult_le_pos; [lra|assumption]|assumption]|assumption]. }
  exists K, (/ (1 + q))%R. split; [apply Rinv_0_lt_compat; lra|]. intros src Hs. split; [exact HK0|]. split; [exact HK|]. exists G. split; [exact HG0|]. split.
  - change (s_M (upd_src src s)) with (s_M s).
    assert (ER : nrm (s_M s) (rhs (upd_src src s)) = (Rabs (s_omega s) * nrm (s_M s) (nd_buf src))%R).
    { rewrite <- (Cmod_R (s_omega s)). replace (Cmod (RtoC (s_omega s))) with (Cmod (Ci * RtoC (s_omega s))%C) by (rewrite Cmod_mult, Cmod_Ci1; apply Rmult_1_l). rewrite <- nrm_scalar. apply nrm_ext. intros k _. unfold rhs. cbn [s_src upd_src s_omega]. ring. }
    rewrite ER. set (x := nrm (s_M s) (nd_buf src)) in *. assert (X0 : (0 <= x)%R) by apply nrm_ge0.
    replace (64 * G * K ^ 3 * (Rabs (s_omega s) * x) ^ 2)%R with (q * x ^ 2)%R by (unfold q; rewrite Rpow_mult_distr, <- (pow2_abs (s_omega s)); ring).
    assert (D1 : (/ (1 + q) <= 1)%R) by (rewrite <- Rinv_1 at 2; apply Rinv_le_contravar; lra).
    assert (D2 : ((1 + q) * / (1 + q) = 1)%R) by (apply Rinv_r; lra). assert (D3 : (0 < / (1 + q))%R) by (apply Rinv_0_lt_compat; lra).
    set (y := (/ (1 + q))%R) in *. assert (X2 : (x ^ 2 <= y)%R) by (replace (x ^ 2)%R with (x * x)%R by ring; apply Rle_trans with (1 * y)%R; [apply Rmult_le_compat; lra|lra]). clearbody y q. nra.
  - intros E k Hk. change (s_M (upd_src src s)) with (s_M s) in Hk. rewrite nl_term. change (gk (upd_src src s) k) with (gk s k). rewrite Rabs_mult, (Rabs_pos_eq (Cnorm2 (E k))) by apply Cnorm2_ge0.
    rewrite Cmod_sq. apply Rmult_le_compat_r; [apply Cnorm2_ge0|]. apply (rsum_term_le (s_M s) (fun k => Rabs (gk s k))); [intros; apply Rabs_pos|exact Hk].
Qed.

(** So the default solver solves the nonlinear equation at low power, for every simulation whose linear
    system has a solution. *)
Corollary C98_low_power_default_solver :
  forall e s, solver_exact e -> nonsingular (s_M s) (s_A s) -> s_fields s (pol_comp (s_pol s)) = None ->
  exists d, (0 < d)%R /\ forall src, nd_size src = s_M s -> (0 < nrm (s_M s) (rhs (upd_src src s)))%R -> (nrm (s_M s) (nd_buf src) <= d)%R ->
  exists s' a b Y conv X, solve_fields_nl_default e (upd_src src s) = (s', Ok (a, b, Y, conv)) /\
    nonlinear_solution (upd_src src s) X /\ (nrm (s_M s) (vminus Y X) <= 1 / 10 ^ 10 / 9 * nrm (s_M s) Y)%R.
Proof.
  intros e s He HN HF. destruct (C98_low_power s HN) as (K & d & Hd & H). exists d. split; [exact Hd|]. intros src Hz Hp Hs.
  destruct (C98_default_solver e (upd_src src s) K He (H src Hs) HF Hz Hp) as (s' & a & b & Y & conv & X & H1 & _ & _ & _ & H2 & _ & H3).
  exists s', a, b, Y, conv, X. auto.
Qed.

Example C98_met : exists K src, weakly_nonlinear (upd_src src ex_nl) K /\ s_fields (upd_src src ex_nl) Ez = None /\ nd_size src = s_M ex_nl /\
  (0 < nrm (s_M ex_nl) (rhs (upd_src src ex_nl)))%R /\ (forall F k, s_eps_nl (compute_nl F ex_nl) k = (3 / 10 * Cnorm2 (F k))%R).
Proof.
  destruct ex_nl_facts as (EM & EP & ES & EL & EO & EE & ED & EA).
  assert (EF : s_fields ex_nl Ez = None).
  { assert (HS := ex_s_eq "Ez" (or_introl eq_refl)). unfold ex_sim_res, Simulation in HS. rewrite ex_check in HS by auto. injection HS as HS. unfold ex_nl, run_ops. cbn [fold_left run_op]. rewrite <- HS. reflexivity. }
  assert (HN : nonsingular (s_M ex_nl) (s_A ex_nl)).
  { apply (nonsingular_ext _ (nl_matrix ex_nl (fun _ => RtoC 0))); [|apply ex_nl_nonsingular]. intros i j Hi Hj. rewrite nl_matrix_kmat by assumption. unfold kmat, mplus, mdiag. destruct (Nat.eqb i j); [|ring].
    replace (Cnorm2 (RtoC 0)) with 0%R by (rewrite <- Cmod_sq, Cmod_0; ring). rewrite Rmult_0_r. ring. }
  destruct (C98_low_power ex_nl HN) as (K & d & Hd & H). rewrite EM in H |- *.
  set (one := fun k => if Nat.eqb k 0 then RtoC 1 else RtoC 0).
  assert (N1 : nrm 6 one = 1%R). { unfold nrm. replace (rsum 6 (fun k => Cnorm2 (one k))) with 1%R; [apply sqrt_1|]. unfold one. cbn [rsum Nat.eqb]. rewrite <- !Cmod_sq, !Cmod_0, Cmod_1. ring. }
  set (src := mkNd 3 2 (fun k => (RtoC d * one k)%C)).
  assert (NS : nrm 6 (nd_buf src) = d) by (unfold src; cbn [nd_buf]; rewrite nrm_scalar, N1, Cmod_R, Rabs_pos_eq by lra; ring).
  exists K, src. split; [apply H; lra|]. split; [exact EF|]. split; [reflexivity|]. split; [|exact EE].
  assert (ER : nrm 6 (rhs (upd_src src ex_nl)) = (Rabs (s_omega ex_nl) * nrm 6 (nd_buf src))%R).
  { rewrite <- (Cmod_R (s_omega ex_nl)). replace (Cmod (RtoC (s_omega ex_nl))) with (Cmod (Ci * RtoC (s_omega ex_nl))%C) by (rewrite Cmod_mult, Cmod_Ci1; apply Rmult_1_l). rewrite <- nrm_scalar. apply nrm_ext. intros k _. unfold rhs. cbn [s_src upd_src s_omega]. ring. }
  rewrite ER, NS, EO. apply Rmult_lt_0_compat; [|exact Hd]. apply Rabs_pos_lt. assert (O := ex_omega_pos). lra.
Qed.
