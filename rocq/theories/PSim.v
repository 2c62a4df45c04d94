(** Lemmas about the Simulation object: frame conditions, consistency of the stored
    matrix, validity of stored fields, Maxwell equations, linearity. *)
From Coq Require Import Reals Lra Lia List ZArith Arith Bool String.
From Coquelicot Require Import Coquelicot.
From Verif Require Import Base Linear MCore MSim Spec PCore.
Import ListNotations.

(* ------------------------------------------------------------------ *)
(** ** Specification predicates on simulations *)

(** The stored matrix and operators are those built for the current permittivity. *)
Definition consistent (s : sim) : Prop :=
  s_Nx s = nd_nx (s_eps s) /\ s_Ny s = nd_ny (s_eps s) /\
  (s_A s, s_derivs s) =
    construct_A (s_omega s) (s_xrange s) (s_yrange s) (nd_nx (s_eps s)) (nd_ny (s_eps s)) (s_epsC s)
      (s_NPML s) (s_pol s) (s_L0 s) true.

(** Positive physical parameters and a non-empty grid. *)
Definition physical (s : sim) : Prop :=
  (0 < s_L0 s)%R /\ (0 < s_omega s)%R /\
  (fst (s_xrange s) < snd (s_xrange s))%R /\ (fst (s_yrange s) < snd (s_yrange s))%R /\
  (0 < s_Nx s)%nat /\ (0 < s_Ny s)%nat.

(** The numerical solver returns a solution whenever the matrix is non-singular. *)
Definition solver_exact (e : env) : Prop :=
  forall sv n A b, nonsingular n A -> solves n A (e_solve e sv n A b) b.

(** The linear problem (everything that determines the linear fields) is the same. *)
Definition same_problem (s s' : sim) : Prop :=
  s_L0 s' = s_L0 s /\ s_omega s' = s_omega s /\ s_NPML s' = s_NPML s /\ s_pol s' = s_pol s /\
  s_dl s' = s_dl s /\ s_Nx s' = s_Nx s /\ s_Ny s' = s_Ny s /\ s_src s' = s_src s /\
  s_xrange s' = s_xrange s /\ s_yrange s' = s_yrange s /\ s_eps s' = s_eps s /\
  s_A s' = s_A s /\ s_derivs s' = s_derivs s /\ s_modes s' = s_modes s /\ s_nl s' = s_nl s /\
  s_rho s' = s_rho s /\ s_W_in s' = s_W_in s.

Lemma same_refl s : same_problem s s.
Proof. repeat split. Qed.
Lemma same_trans s1 s2 s3 : same_problem s1 s2 -> same_problem s2 s3 -> same_problem s1 s3.
Proof. unfold same_problem. intuition congruence. Qed.
Lemma same_sym s1 s2 : same_problem s1 s2 -> same_problem s2 s1.
Proof. unfold same_problem. intuition congruence. Qed.

(* ------------------------------------------------------------------ *)
(** ** solver_direct *)

Lemma all_zero_spec n b : all_zero n b = true <-> (forall k, (k < n)%nat -> b k = RtoC 0).
Proof.
  unfold all_zero. destruct (Req_EM_T _ _) as [E|E]; split; intro H; try reflexivity; try discriminate.
  - intros k Hk. apply Cnorm2_eq0. apply (rsum_eq0 n (fun k => Cnorm2 (b k))); auto. intros; apply Cnorm2_ge0.
  - exfalso; apply E. apply rsum_0; intros k Hk. rewrite H by assumption. apply Cnorm2_0.
Qed.
Lemma solver_direct_default_ok e n A b : exists x, solver_direct e n A b (DEFAULT_SOLVER e) = Ok x.
Proof.
  unfold solver_direct, DEFAULT_SOLVER. destruct (all_zero n b); [eexists; reflexivity|].
  destruct (e_pardiso e); eexists; reflexivity.
Qed.
Lemma solver_direct_correct e n A b sv x :
  solver_exact e -> nonsingular n A -> solver_direct e n A b sv = Ok x -> solves n A x b.
Proof.
  intros He HA H. unfold solver_direct in H. destruct (all_zero n b) eqn:Z.
  - injection H as <-. intros r Hr. rewrite (proj1 (all_zero_spec n b) Z) by assumption.
    apply csum_0; intros; unfold vzero; ring.
  - destruct sv; [destruct (e_pardiso e)| |]; try discriminate; injection H as <-; apply He; assumption.
Qed.
Lemma solves_mv n A x b : solves n A x b <-> veq n (mv n A x) b.
Proof. reflexivity. Qed.
Lemma solves_unique n A x y b : nonsingular n A -> solves n A x b -> solves n A y b -> veq n x y.
Proof.
  intros HA H1 H2. apply (left_inverse_unique n A); [assumption|].
  intros k Hk. exact (eq_trans (H1 k Hk) (eq_sym (H2 k Hk))).
Qed.
Lemma solves_ext n A A' x b b' : meq n A A' -> veq n b b' -> solves n A x b -> solves n A' x b'.
Proof.
  intros H1 H2 H r Hr. rewrite <- H2 by assumption. rewrite <- (H r Hr).
  apply csum_ext; intros. rewrite H1 by assumption; reflexivity.
Qed.

(* ------------------------------------------------------------------ *)
(** ** frame conditions *)

Lemma compute_nl_same E s : same_problem s (compute_nl E s).
Proof. repeat split. Qed.
Lemma compute_nl_fields E s : s_fields (compute_nl E s) = s_fields s.
Proof. reflexivity. Qed.

(** complete description of solve_fields *)
Lemma solve_fields_lin e av s :
  nd_size (s_src s) = s_M s ->
  exists X, solver_direct e (s_M s) (s_A s) (rhs s) (DEFAULT_SOLVER e) = Ok X /\
    let D := derived_fields s (s_epsC s) av X in
    solve_fields e false av s =
      (upd_fields (store3 (s_pol s) (s_fields s) (fst D, snd D, X)) s, Ok (fst D, snd D, X)).
Proof.
  intro Hs. destruct (solver_direct_default_ok e (s_M s) (s_A s) (rhs s)) as [X HX].
  exists X; split; [assumption|]. unfold solve_fields. rewrite Hs, Nat.eqb_refl, HX. simpl.
  destruct (derived_fields s (s_epsC s) av X) as [a b]. reflexivity.
Qed.
Lemma solve_fields_nl_state e av s s' r :
  solve_fields e true av s = (s', r) -> s' = s.
Proof.
  unfold solve_fields. destruct (s_Anl s) as [[m An]|]; [|intro H; injection H as <-; reflexivity].
  destruct (Nat.eqb m (s_M s)); [|intro H; injection H as <-; reflexivity].
  destruct (negb _); [intro H; injection H as <-; reflexivity|].
  destruct (solver_direct _ _ _ _ _); [|intro H; injection H as <-; reflexivity].
  destruct (derived_fields _ _ _ _). intro H; injection H as <-; reflexivity.
Qed.
Lemma solve_fields_lin_state e av s s' r :
  solve_fields e false av s = (s', r) ->
  same_problem s s' /\
  ((r = Raise ValueError /\ s' = s /\ nd_size (s_src s) <> s_M s) \/
   (nd_size (s_src s) = s_M s /\
    exists X, solver_direct e (s_M s) (s_A s) (rhs s) (DEFAULT_SOLVER e) = Ok X /\
      let D := derived_fields s (s_epsC s) av X in
      s_fields s' = store3 (s_pol s) (s_fields s) (fst D, snd D, X) /\ r = Ok (fst D, snd D, X))).
Proof.
  intro H. destruct (Nat.eq_dec (nd_size (s_src s)) (s_M s)) as [Hs|Hs].
  - destruct (solve_fields_lin e av s Hs) as [X [HX HE]]. cbv zeta in HE. rewrite HE in H. injection H as <- <-.
    split; [repeat split|]. right; split; [assumption|]. exists X; repeat split; assumption.
  - unfold solve_fields in H. destruct (Nat.eqb_spec (nd_size (s_src s)) (s_M s)); [contradiction|].
    simpl in H. injection H as <- <-. split; [apply same_refl|]. left; repeat split; assumption.
Qed.
Lemma solve_fields_same e inc av s : same_problem s (fst (solve_fields e inc av s)).
Proof.
  destruct (solve_fields e inc av s) as [s' r] eqn:E. simpl. destruct inc.
  - apply solve_fields_nl_state in E. subst; apply same_refl.
  - apply solve_fields_lin_state in E. apply E.
Qed.
Lemma comp_eqb_refl c : comp_eqb c c = true. Proof. destruct c; reflexivity. Qed.
Lemma store3_pol p d F : store3 p d F (pol_comp p) = Some (snd F).
Proof. destruct F as [[a b] c]. unfold store3, fset. rewrite comp_eqb_refl. reflexivity. Qed.

(** s' has the same linear problem as s, and its stored linear fields are those of s
    or those a linear solve stores *)
Definition lin_step (e : env) (s s' : sim) : Prop :=
  same_problem s s' /\
  (s_fields s' = s_fields s \/
   (s_fields s (pol_comp (s_pol s)) = None /\
    exists s1 F, solve_fields e false false s = (s1, Ok F) /\ s_fields s' = s_fields s1)).

Definition keeps (s s' : sim) : Prop := same_problem s s' /\ s_fields s' = s_fields s.
Lemma keeps_refl s : keeps s s. Proof. split; [apply same_refl|reflexivity]. Qed.
Lemma keeps_trans a b c : keeps a b -> keeps b c -> keeps a c.
Proof. intros [H1 H2] [H3 H4]; split; [eapply same_trans; eassumption|congruence]. Qed.
Lemma lin_step_keeps e a b c : lin_step e a b -> keeps b c -> lin_step e a c.
Proof.
  intros [H1 H2] [H3 H4]; split; [eapply same_trans; eassumption|].
  destruct H2 as [H2|[Hn [s1 [F [E1 E2]]]]]; [left; congruence|].
  right. split; [assumption|]. exists s1, F. split; [assumption|congruence].
Qed.
Lemma keeps_lin e a b : keeps a b -> lin_step e a b.
Proof. intros [H1 H2]; split; [assumption|left; assumption]. Qed.

Lemma start_field_step e p Es s s' r :
  p = s_pol s -> start_field e (pol_comp p) Es s = (s', r) -> lin_step e s s'.
Proof.
  intros Hp H. unfold start_field in H. destruct Es as [F|].
  { injection H as <- <-. apply keeps_lin, keeps_refl. }
  destruct (s_fields s (pol_comp p)) eqn:Ef.
  { injection H as <- <-. apply keeps_lin, keeps_refl. }
  destruct (solve_fields e false false s) as [s1 [[[a b] F]|x]] eqn:E.
  - injection H as <- <-. split.
    + apply solve_fields_lin_state in E. apply E.
    + right. subst p. split; [assumption|]. exists s1, (a, b, F). split; [assumption|reflexivity].
  - injection H as <- <-. apply solve_fields_lin_state in E. destruct E as [E1 [[_ [-> _]]|[_ [X [_ [_ E]]]]]].
    + apply keeps_lin, keeps_refl.
    + discriminate.
Qed.

Lemma born_loop_keeps e thr n : forall F s s' r, born_loop e thr n F s = (s', r) -> keeps s s'.
Proof.
  induction n; intros F s s' r H.
  - injection H as <- <-. apply keeps_refl.
  - cbn [born_loop] in H.
    destruct (solve_fields e true false (compute_nl F s)) as [s2 [[[a b] c]|x]] eqn:E;
      apply solve_fields_nl_state in E; subst s2.
    + destruct (xlt _ _).
      * injection H as <- <-. split; [apply compute_nl_same|reflexivity].
      * destruct (born_loop e thr n c (compute_nl F s)) as [s3 r3] eqn:E3.
        apply IHn in E3.
        assert (keeps s s3) by (eapply keeps_trans; [|exact E3]; split; [apply compute_nl_same|reflexivity]).
        destruct r3 as [[[G|] l]|]; injection H as <- <-; assumption.
    + injection H as <- <-. split; [apply compute_nl_same|reflexivity].
Qed.
Lemma nl_eq_keeps E s s' r : nl_eq_and_jac E s = (s', r) -> keeps s s'.
Proof.
  unfold nl_eq_and_jac. destruct (s_pol s).
  - destruct (Nat.eqb _ _); intro H; injection H as <- <-; (split; [apply compute_nl_same|reflexivity]).
  - intro H; injection H as <- <-. apply keeps_refl.
Qed.
Lemma newton_loop_keeps e thr n : forall E s s' r, newton_loop e thr n E s = (s', r) -> keeps s s'.
Proof.
  induction n; intros E s s' r H.
  - injection H as <- <-. apply keeps_refl.
  - cbn [newton_loop] in H.
    destruct (nl_eq_and_jac E s) as [s1 [[[f J1] J2]|x]] eqn:E1; apply nl_eq_keeps in E1.
    + destruct (solver_complex2real _ _ _ _ _ _) as [d|x]; [|injection H as <- <-; assumption].
      destruct (xlt _ _); [injection H as <- <-; assumption|].
      destruct (newton_loop e thr n (vminus E d) s1) as [s2 r2] eqn:E2.
      apply IHn in E2. assert (keeps s s2) by (eapply keeps_trans; eassumption).
      destruct r2 as [[E' l]|]; injection H as <- <-; assumption.
    + injection H as <- <-; assumption.
Qed.
Lemma born_solve_step e Es thr n av s s' r :
  born_solve e Es thr n av s = (s', r) -> lin_step e s s'.
Proof.
  intro H. unfold born_solve in H.
  destruct (start_field e (pol_comp (s_pol s)) Es s) as [s1 [Fz|x]] eqn:E1;
    apply start_field_step in E1; try reflexivity.
  - destruct (born_loop e thr n Fz s1) as [s2 r2] eqn:E2. apply born_loop_keeps in E2.
    assert (lin_step e s s2) by (eapply lin_step_keeps; eassumption).
    destruct r2 as [[[F|] l]|]; injection H as <- <-; assumption.
  - injection H as <- <-; assumption.
Qed.
Lemma newton_solve_step e Es thr n av s s' r :
  newton_solve e Es thr n av s = (s', r) -> lin_step e s s'.
Proof.
  intro H. unfold newton_solve in H. destruct (s_pol s) eqn:Ep.
  - destruct (start_field e Ez Es s) as [s1 [E0|x]] eqn:E1.
    + apply (start_field_step e PolEz) in E1; [|congruence].
      destruct (newton_loop e thr n E0 s1) as [s2 [[E l]|x]] eqn:E2; apply newton_loop_keeps in E2.
      * assert (H2: lin_step e s (compute_nl E s2)).
        { eapply lin_step_keeps; [eapply lin_step_keeps; eassumption|]. split; [apply compute_nl_same|reflexivity]. }
        destruct (solve_fields e true false (compute_nl E s2)) as [s4 [F|x]] eqn:E4;
          apply solve_fields_nl_state in E4; subst s4.
        -- destruct n; injection H as <- <-; assumption.
        -- injection H as <- <-; assumption.
      * injection H as <- <-. eapply lin_step_keeps; eassumption.
    + apply (start_field_step e PolEz) in E1; [|congruence]. injection H as <- <-; assumption.
  - injection H as <- <-. apply keeps_lin, keeps_refl.
Qed.

(** start_field at 'Ez' in a Hz simulation (krylov): the fields dictionary may gain
    the Hz linear fields even if already present *)
Definition lin_step' (e : env) (s s' : sim) : Prop :=
  same_problem s s' /\
  (s_fields s' = s_fields s \/
   (exists s1 F, solve_fields e false false s = (s1, Ok F) /\ s_fields s' = s_fields s1)).
Lemma lin_step_weak e s s' : lin_step e s s' -> lin_step' e s s'.
Proof. intros [H1 [H2|[_ H2]]]; split; auto. Qed.
Lemma start_field_step' e c Es s s' r :
  start_field e c Es s = (s', r) -> lin_step' e s s'.
Proof.
  intros H. unfold start_field in H. destruct Es as [F|].
  { injection H as <- <-. split; [apply same_refl|left; reflexivity]. }
  destruct (s_fields s c) eqn:Ef.
  { injection H as <- <-. split; [apply same_refl|left; reflexivity]. }
  destruct (solve_fields e false false s) as [s1 [[[a b] F]|x]] eqn:E.
  - injection H as <- <-. split.
    + apply solve_fields_lin_state in E. apply E.
    + right. exists s1, (a, b, F). split; [assumption|reflexivity].
  - injection H as <- <-. apply solve_fields_lin_state in E. destruct E as [E1 [[_ [-> _]]|[_ [X [_ [_ E]]]]]].
    + split; [apply same_refl|left; reflexivity].
    + discriminate.
Qed.
Lemma lin_step'_keeps e a b c : lin_step' e a b -> keeps b c -> lin_step' e a c.
Proof.
  intros [H1 H2] [H3 H4]; split; [eapply same_trans; eassumption|].
  destruct H2 as [H2|[s1 [F [E1 E2]]]]; [left; congruence|].
  right. exists s1, F. split; [assumption|congruence].
Qed.
Lemma krylov_step e Es thr n av s s' r :
  newton_krylov_solve e Es thr n av s = (s', r) -> lin_step' e s s'.
Proof.
  intro H. unfold newton_krylov_solve in H.
  destruct (start_field e Ez Es s) as [s1 [E0|x]] eqn:E1; apply start_field_step' in E1.
  - destruct (nl_eq_and_jac E0 s1) as [s2 [F|x]] eqn:E2; apply nl_eq_keeps in E2.
    + destruct (e_krylov e _ E0) as [E El]. injection H as <- <-.
      eapply lin_step'_keeps; [eapply lin_step'_keeps; eassumption|]. split; [apply compute_nl_same|reflexivity].
    + injection H as <- <-. eapply lin_step'_keeps; eassumption.
  - injection H as <- <-. assumption.
Qed.

(** two linear steps in a row: the second finds the fields of the first *)
Lemma lin_step'_trans e a b c : lin_step' e a b -> lin_step e b c -> lin_step' e a c \/ 
   (lin_step' e a b /\ exists s1 F, solve_fields e false false b = (s1, Ok F) /\ s_fields c = s_fields s1 /\ same_problem a c).
Proof.
  intros [H1 H2] [H3 H4].
  assert (same_problem a c) by (eapply same_trans; eassumption).
  destruct H4 as [H4|[_ [s1 [F [E1 E2]]]]].
  - left. split; [assumption|]. destruct H2 as [H2|[t [F [E1 E2]]]]; [left; congruence|].
    right. exists t, F. split; [assumption|congruence].
  - right. split; [split; assumption|]. exists s1, F. auto.
Qed.
Lemma newton_solve_some_keeps e E thr n av s s' r :
  newton_solve e (Some E) thr n av s = (s', r) -> keeps s s'.
Proof.
  intro H. unfold newton_solve in H. destruct (s_pol s) eqn:Ep.
  - simpl in H.
    destruct (newton_loop e thr n E s) as [s2 [[E2 l]|x]] eqn:E2'; apply newton_loop_keeps in E2'.
    + assert (H2: keeps s (compute_nl E2 s2)).
      { eapply keeps_trans; [eassumption|]. split; [apply compute_nl_same|reflexivity]. }
      destruct (solve_fields e true false (compute_nl E2 s2)) as [s4 [F|x]] eqn:E4;
        apply solve_fields_nl_state in E4; subst s4.
      * destruct n; injection H as <- <-; assumption.
      * injection H as <- <-; assumption.
    + injection H as <- <-. assumption.
  - injection H as <- <-. apply keeps_refl.
Qed.

Lemma run_solver_nl_step e av Es name thr n s s' r :
  run_solver_nl e av Es name thr n s = (s', r) -> lin_step' e s s'.
Proof.
  unfold run_solver_nl. intro H.
  destruct (String.eqb name "born"); [eapply lin_step_weak, born_solve_step; eassumption|].
  destruct (String.eqb name "newton"); [eapply lin_step_weak, newton_solve_step; eassumption|].
  destruct (String.eqb name "LM"). { injection H as <- <-. split; [apply same_refl|left; reflexivity]. }
  destruct (String.eqb name "krylov"); [eapply krylov_step; eassumption|].
  destruct (String.eqb name "hybrid").
  2:{ injection H as <- <-. split; [apply same_refl|left; reflexivity]. }
  destruct (born_solve e Es thr 20 av s) as [s1 [[F conv]|x]] eqn:E1; apply born_solve_step in E1.
  - destruct (last_conv conv) as [c|x].
    + destruct (xgt c _).
      * apply newton_solve_some_keeps in H. apply lin_step_weak. eapply lin_step_keeps; eassumption.
      * injection H as <- <-. apply lin_step_weak; assumption.
    + injection H as <- <-. apply lin_step_weak; assumption.
  - injection H as <- <-. apply lin_step_weak; assumption.
Qed.
(** for every solver except krylov the stored linear fields are only written when none
    were stored *)
Lemma run_solver_nl_step_strict e av Es name thr n s s' r :
  name <> "krylov"%string \/ s_pol s = PolEz ->
  run_solver_nl e av Es name thr n s = (s', r) -> lin_step e s s'.
Proof.
  unfold run_solver_nl. intros Hk H.
  destruct (String.eqb name "born"); [eapply born_solve_step; eassumption|].
  destruct (String.eqb name "newton"); [eapply newton_solve_step; eassumption|].
  destruct (String.eqb name "LM"). { injection H as <- <-. apply keeps_lin, keeps_refl. }
  destruct (String.eqb_spec name "krylov") as [E|].
  { destruct Hk as [Hk|Hk]; [contradiction|].
    unfold newton_krylov_solve in H.
    destruct (start_field e Ez Es s) as [s1 [E0|x]] eqn:E1; apply (start_field_step e PolEz) in E1; auto.
    - destruct (nl_eq_and_jac E0 s1) as [s2 [F|x]] eqn:E2; apply nl_eq_keeps in E2.
      + destruct (e_krylov e _ E0) as [EE El]. injection H as <- <-.
        eapply lin_step_keeps; [eapply lin_step_keeps; eassumption|]. split; [apply compute_nl_same|reflexivity].
      + injection H as <- <-. eapply lin_step_keeps; eassumption.
    - injection H as <- <-. assumption. }
  destruct (String.eqb name "hybrid").
  2:{ injection H as <- <-. apply keeps_lin, keeps_refl. }
  destruct (born_solve e Es thr 20 av s) as [s1 [[F conv]|x]] eqn:E1; apply born_solve_step in E1.
  - destruct (last_conv conv) as [c|x].
    + destruct (xgt c _).
      * apply newton_solve_some_keeps in H. eapply lin_step_keeps; eassumption.
      * injection H as <- <-. assumption.
    + injection H as <- <-. assumption.
  - injection H as <- <-. assumption.
Qed.
Lemma solve_nl_step e av Es name thr n s s' r :
  solve_fields_nl e av Es name thr n s = (s', r) -> lin_step' e s s'.
Proof.
  unfold solve_fields_nl. intro H.
  destruct (run_solver_nl e av Es name thr n s) as [s1 [[F conv]|x]] eqn:E; apply run_solver_nl_step in E.
  - injection H as <- <-. eapply lin_step'_keeps; [eassumption|]. split; [repeat split|reflexivity].
  - injection H as <- <-. assumption.
Qed.
Lemma solve_nl_step_strict e av Es name thr n s s' r :
  name <> "krylov"%string \/ s_pol s = PolEz ->
  solve_fields_nl e av Es name thr n s = (s', r) -> lin_step e s s'.
Proof.
  unfold solve_fields_nl. intros Hk H.
  destruct (run_solver_nl e av Es name thr n s) as [s1 [[F conv]|x]] eqn:E; apply run_solver_nl_step_strict in E; auto.
  - injection H as <- <-. eapply lin_step_keeps; [eassumption|]. split; [repeat split|reflexivity].
  - injection H as <- <-. assumption.
Qed.

(* ------------------------------------------------------------------ *)
(** ** consistency *)

Lemma consistent_same s s' : same_problem s s' -> consistent s -> consistent s'.
Proof.
  unfold same_problem, consistent, s_epsC.
  intros (-> & -> & -> & -> & _ & -> & -> & _ & -> & -> & -> & -> & -> & _) H. exact H.
Qed.
Lemma physical_same s s' : same_problem s s' -> physical s -> physical s'.
Proof.
  unfold same_problem, physical.
  intros (E1 & E2 & _ & _ & _ & E6 & E7 & _ & E9 & E10 & _). rewrite E1, E2, E6, E7, E9, E10. auto.
Qed.
Lemma set_eps_consistent a s : consistent (set_eps a s).
Proof.
  unfold consistent, set_eps, s_epsC; cbn [s_Nx s_Ny s_eps s_A s_derivs s_omega s_xrange s_yrange s_NPML s_pol s_L0 nd_nx nd_ny].
  repeat split. symmetry. apply surjective_pairing.
Qed.
Lemma Simulation_consistent omega eps dl np p L0 s :
  Simulation omega eps dl np p L0 = Ok s -> consistent s.
Proof.
  unfold Simulation. destruct (check_inputs _ _ _ _); [|discriminate]. intro H; injection H as <-.
  apply set_eps_consistent.
Qed.

(* ------------------------------------------------------------------ *)
(** ** histories of public operations *)

Inductive op :=
| SetEps (a : nd R)                                   (* simulation.eps_r = a *)
| SetSrc (a : nd C)                                   (* simulation.src = a, setup_modes *)
| Solve (inc av : bool)                               (* solve_fields *)
| SolveNl (av : bool) (Es : option vec) (name : string) (thr : R) (n : nat)
| AddNl (chi : R) (region : rvec) (ty : string) (es : bool) (em : option R)
| AddMode (m : mode)
| ComputeNl (E : vec)
| InitDesign (design : rvec) (eps_m : R) (style : string) (rnd : nat -> R) (* rnd: the numbers drawn *)
| IndexShift.

Definition run_op (e : env) (o : op) (s : sim) : sim :=
  match o with
  | SetEps a => set_eps a s
  | SetSrc a => upd_src a s
  | Solve inc av => fst (solve_fields e inc av s)
  | SolveNl av Es name thr n => fst (solve_fields_nl e av Es name thr n s)
  | AddNl chi region ty es em => fst (add_nl chi region ty es em s)
  | AddMode m => fst (add_mode m s)
  | ComputeNl E => compute_nl E s
  | InitDesign d em st rnd => init_design_region rnd d em st s
  | IndexShift => fst (compute_index_shift e s)
  end.
Definition run_ops (e : env) (l : list op) (s : sim) : sim := fold_left (fun s o => run_op e o s) l s.

Lemma index_shift_state e s : exists s1, fst (solve_fields e false false s) = s1 /\
  (fst (compute_index_shift e s) = s1 \/
   fst (compute_index_shift e s) = fst (solve_fields_nl_default e s1)).
Proof.
  unfold compute_index_shift, bind.
  destruct (solve_fields e false false s) as [s1 [F|x]]; simpl; exists s1; split; auto.
  destruct (solve_fields_nl_default e s1) as [s2 [F2|x]]; simpl; auto.
Qed.

Lemma run_op_consistent e o s : consistent s -> consistent (run_op e o s).
Proof.
  intro H. destruct o; cbn [run_op].
  - apply set_eps_consistent.
  - exact H.
  - eapply consistent_same; [apply solve_fields_same|assumption].
  - destruct (solve_fields_nl e av Es name thr n s) as [s' r] eqn:E. apply solve_nl_step in E.
    eapply consistent_same; [apply E|assumption].
  - unfold add_nl, bind, getS, lift, putS. destruct (Nonlinearity _ _ _ _ _); exact H.
  - exact H.
  - exact H.
  - unfold init_design_region. destruct (init_eps _ _ _ _ _).
    + apply set_eps_consistent.
    + exact H.
  - destruct (index_shift_state e s) as [s1 [E1 E2]].
    assert (H1: consistent s1) by (rewrite <- E1; eapply consistent_same; [apply solve_fields_same|assumption]).
    destruct E2 as [-> | ->]; [assumption|].
    unfold solve_fields_nl_default. destruct (solve_fields_nl e _ _ _ _ _ s1) as [s' r] eqn:E.
    apply solve_nl_step in E. eapply consistent_same; [apply E|assumption].
Qed.
Lemma run_ops_consistent e l : forall s, consistent s -> consistent (run_ops e l s).
Proof.
  induction l as [|o l IH]; intros s H; [assumption|]. simpl. apply IH. apply run_op_consistent; assumption.
Qed.

(** ** parameters that no operation changes *)
Definition same_params (s s' : sim) : Prop :=
  s_L0 s' = s_L0 s /\ s_omega s' = s_omega s /\ s_NPML s' = s_NPML s /\ s_pol s' = s_pol s /\
  s_dl s' = s_dl s /\ s_xrange s' = s_xrange s /\ s_yrange s' = s_yrange s.
Lemma same_params_of s s' : same_problem s s' -> same_params s s'.
Proof. unfold same_problem, same_params; intuition. Qed.
Lemma run_op_params e o s : same_params s (run_op e o s).
Proof.
  destruct o; cbn [run_op]; try (repeat split; fail).
  - apply same_params_of, solve_fields_same.
  - destruct (solve_fields_nl e av Es name thr n s) as [s' r] eqn:E. apply solve_nl_step in E.
    apply same_params_of, E.
  - unfold add_nl, bind, getS, lift, putS. destruct (Nonlinearity _ _ _ _ _); repeat split.
  - unfold init_design_region. destruct (init_eps _ _ _ _ _); repeat split.
  - destruct (index_shift_state e s) as [s1 [E1 E2]].
    assert (H1: same_params s s1) by (rewrite <- E1; apply same_params_of, solve_fields_same).
    destruct E2 as [-> | ->]; [assumption|].
    unfold solve_fields_nl_default. destruct (solve_fields_nl e _ _ _ _ _ s1) as [s' r] eqn:E.
    apply solve_nl_step in E. assert (H2: same_params s1 s') by (apply same_params_of, E).
    simpl. unfold same_params in *; intuition congruence.
Qed.
Lemma run_ops_params e l : forall s, same_params s (run_ops e l s).
Proof.
  induction l as [|o l IH]; intros s; [repeat split|]. simpl.
  assert (H1 := run_op_params e o s). assert (H2 := IH (run_op e o s)).
  unfold same_params in *; unfold run_ops in *; intuition congruence.
Qed.

(* ------------------------------------------------------------------ *)
(** ** stored fields *)

Definition fields_inv (e : env) (s : sim) : Prop :=
  (forall c, s_fields s c = None) \/
  (nd_size (s_src s) = s_M s /\
   exists av X, solver_direct e (s_M s) (s_A s) (rhs s) (DEFAULT_SOLVER e) = Ok X /\
     let D := derived_fields s (s_epsC s) av X in
     forall c, s_fields s c = store3 (s_pol s) no_fields (fst D, snd D, X) c).

Lemma store3_over p d F c : (forall c', d c' = None \/ exists G, d c' = store3 p no_fields G c') ->
  store3 p d F c = store3 p no_fields F c.
Proof.
  intro H. destruct F as [[x y] z]. unfold store3, fset, no_fields.
  destruct (comp_eqb (pol_comp p) c) eqn:E1; [reflexivity|].
  destruct (comp_eqb (comp2 p) c) eqn:E2; [reflexivity|].
  destruct (comp_eqb (comp1 p) c) eqn:E3; [reflexivity|].
  destruct (H c) as [->|[G ->]]; [reflexivity|]. destruct G as [[x' y'] z'].
  unfold store3, fset, no_fields. rewrite E1, E2, E3. reflexivity.
Qed.
Lemma fields_inv_same e s s' : same_problem s s' -> s_fields s' = s_fields s ->
  fields_inv e s -> fields_inv e s'.
Proof.
  intros HS HF H. unfold fields_inv, s_M, s_epsC, rhs, derived_fields in *.
  unfold same_problem in HS.
  destruct HS as (E1 & E2 & E3 & E4 & E5 & E6 & E7 & E8 & E9 & E10 & E11 & E12 & E13 & _).
  unfold s_M. rewrite HF, E1, E2, E4, E6, E7, E8, E11, E12, E13. exact H.
Qed.
Lemma fields_inv_solve e av s s' r :
  fields_inv e s -> solve_fields e false av s = (s', r) -> fields_inv e s'.
Proof.
  intros HI H. assert (H' := H). apply solve_fields_lin_state in H' as [HS [[_ [-> _]]|[Hs [X [HX [HF _]]]]]]; [assumption|].
  assert (HF0: forall c', s_fields s c' = None \/ exists G, s_fields s c' = store3 (s_pol s) no_fields G c').
  { intro c'. destruct HI as [HI|[_ [av' [X' [_ HI]]]]]; [left; apply HI|right; eexists; apply HI]. }
  right.
  destruct HS as (E1 & E2 & E3 & E4 & E5 & E6 & E7 & E8 & E9 & E10 & E11 & E12 & E13 & _).
  unfold s_M, s_epsC, rhs, derived_fields, s_M in *. rewrite E1, E2, E4, E6, E7, E8, E11, E12, E13, HF.
  split; [assumption|]. exists av, X. split; [assumption|]. intro c. apply store3_over; assumption.
Qed.
Lemma fields_inv_lin_step e s s' : lin_step' e s s' -> fields_inv e s -> fields_inv e s'.
Proof.
  intros [HS HF] HI. destruct HF as [HF|[s1 [F [E1 E2]]]].
  - eapply fields_inv_same; eassumption.
  - assert (H1 := fields_inv_solve e false s s1 _ HI E1).
    apply solve_fields_lin_state in E1 as [HS1 _].
    eapply fields_inv_same; [|exact E2|exact H1]. eapply same_trans; [apply same_sym; exact HS1|exact HS].
Qed.

Definition not_set_src (o : op) : Prop := match o with SetSrc _ => False | _ => True end.

Lemma run_op_fields_inv e o s : not_set_src o -> fields_inv e s -> fields_inv e (run_op e o s).
Proof.
  intros Hn HI. destruct o; cbn [run_op].
  - left; reflexivity.
  - destruct Hn.
  - destruct (solve_fields e inc av s) as [s' r] eqn:E. simpl. destruct inc.
    + apply solve_fields_nl_state in E. subst; assumption.
    + eapply fields_inv_solve; eassumption.
  - destruct (solve_fields_nl e av Es name thr n s) as [s' r] eqn:E. apply solve_nl_step in E.
    eapply fields_inv_lin_step; eassumption.
  - unfold add_nl, bind, getS, lift, putS. destruct (Nonlinearity _ _ _ _ _); exact HI.
  - exact HI.
  - exact HI.
  - unfold init_design_region. destruct (init_eps _ _ _ _ _).
    + left; reflexivity.
    + exact HI.
  - destruct (index_shift_state e s) as [s1 [E1 E2]].
    assert (H1: fields_inv e s1).
    { destruct (solve_fields e false false s) as [t r] eqn:E. simpl in E1; subst t.
      eapply fields_inv_solve; eassumption. }
    destruct E2 as [-> | ->]; [assumption|].
    unfold solve_fields_nl_default. destruct (solve_fields_nl e _ _ _ _ _ s1) as [s' r] eqn:E.
    apply solve_nl_step in E. eapply fields_inv_lin_step; eassumption.
Qed.
Lemma run_ops_fields_inv e l : forall s, List.Forall not_set_src l -> fields_inv e s -> fields_inv e (run_ops e l s).
Proof.
  induction l as [|o l IH]; intros s HF H; [assumption|]. inversion HF; subst. simpl. apply IH; [assumption|].
  apply run_op_fields_inv; assumption.
Qed.

(* ------------------------------------------------------------------ *)
(** ** nonlinear matrix *)

Definition nl_inv (s : sim) : Prop :=
  match s_Anl s with
  | None => True
  | Some (m, An) => An = spdiags (fun k => RtoC (s_omega s ^ 2 * EPSILON_0 * s_L0 s * s_eps_nl s k))
  end.
Definition nl_same (s s' : sim) : Prop :=
  s_L0 s' = s_L0 s /\ s_omega s' = s_omega s /\ (nl_inv s -> nl_inv s').
Lemma nl_same_refl s : nl_same s s. Proof. repeat split; auto. Qed.
Lemma nl_same_trans a b c : nl_same a b -> nl_same b c -> nl_same a c.
Proof. unfold nl_same; intuition congruence. Qed.
Lemma compute_nl_inv E s : nl_same s (compute_nl E s).
Proof. repeat split. Qed.
Lemma nl_same_eq s s' : s_L0 s' = s_L0 s -> s_omega s' = s_omega s ->
  s_Anl s' = s_Anl s -> s_eps_nl s' = s_eps_nl s -> nl_same s s'.
Proof. intros H1 H2 H3 H4. split; [assumption|]. split; [assumption|]. unfold nl_inv. rewrite H1, H2, H3, H4. auto. Qed.
Lemma solve_fields_nl_same e inc av s : nl_same s (fst (solve_fields e inc av s)).
Proof.
  destruct (solve_fields e inc av s) as [s' r] eqn:E. simpl. destruct inc.
  - apply solve_fields_nl_state in E. subst; apply nl_same_refl.
  - unfold solve_fields in E. destruct (negb _); [injection E as <- <-; apply nl_same_refl|].
    destruct (solver_direct _ _ _ _ _); [|injection E as <- <-; apply nl_same_refl].
    destruct (derived_fields _ _ _ _). injection E as <- <-. apply nl_same_eq; reflexivity.
Qed.
Lemma start_field_nl e c Es s : nl_same s (fst (start_field e c Es s)).
Proof.
  unfold start_field. destruct Es; [apply nl_same_refl|]. destruct (s_fields s c); [apply nl_same_refl|].
  assert (H := solve_fields_nl_same e false false s).
  destruct (solve_fields e false false s) as [s1 [[[a b] F]|x]]; exact H.
Qed.
Lemma born_loop_nl e thr n : forall F s, nl_same s (fst (born_loop e thr n F s)).
Proof.
  induction n; intros F s; [apply nl_same_refl|]. cbn [born_loop].
  assert (H := solve_fields_nl_same e true false (compute_nl F s)).
  assert (Hc := compute_nl_inv F s).
  destruct (solve_fields e true false (compute_nl F s)) as [s2 [[[a b] c]|x]]; simpl in H;
    [|eapply nl_same_trans; eassumption].
  destruct (xlt _ _); [eapply nl_same_trans; eassumption|].
  assert (IH := IHn c s2). assert (nl_same s (fst (born_loop e thr n c s2))).
  { eapply nl_same_trans; [eapply nl_same_trans; eassumption|exact IH]. }
  destruct (born_loop e thr n c s2) as [s3 [[[G|] l]|]]; assumption.
Qed.
Lemma nl_eq_nl E s : nl_same s (fst (nl_eq_and_jac E s)).
Proof.
  unfold nl_eq_and_jac. destruct (s_pol s); [|apply nl_same_refl].
  destruct (Nat.eqb _ _); apply compute_nl_inv.
Qed.
Lemma newton_loop_nl e thr n : forall E s, nl_same s (fst (newton_loop e thr n E s)).
Proof.
  induction n; intros E s; [apply nl_same_refl|]. cbn [newton_loop].
  assert (H := nl_eq_nl E s). destruct (nl_eq_and_jac E s) as [s1 [[[f J1] J2]|x]]; [|exact H].
  destruct (solver_complex2real _ _ _ _ _ _) as [d|x]; [|exact H].
  destruct (xlt _ _); [exact H|]. assert (IH := IHn (vminus E d) s1).
  assert (nl_same s (fst (newton_loop e thr n (vminus E d) s1))) by (eapply nl_same_trans; eassumption).
  destruct (newton_loop e thr n (vminus E d) s1) as [s2 [[E' l]|]]; assumption.
Qed.
Lemma born_solve_nl e Es thr n av s : nl_same s (fst (born_solve e Es thr n av s)).
Proof.
  unfold born_solve. assert (H := start_field_nl e (pol_comp (s_pol s)) Es s).
  destruct (start_field e (pol_comp (s_pol s)) Es s) as [s1 [F|]]; [|exact H].
  assert (H2 := born_loop_nl e thr n F s1).
  assert (nl_same s (fst (born_loop e thr n F s1))) by (eapply nl_same_trans; eassumption).
  destruct (born_loop e thr n F s1) as [s2 [[[G|] l]|]]; assumption.
Qed.
Lemma newton_solve_nl e Es thr n av s : nl_same s (fst (newton_solve e Es thr n av s)).
Proof.
  unfold newton_solve. destruct (s_pol s); [|apply nl_same_refl].
  assert (H := start_field_nl e Ez Es s).
  destruct (start_field e Ez Es s) as [s1 [F|]]; [|exact H].
  assert (H2 := newton_loop_nl e thr n F s1).
  assert (H3: nl_same s (fst (newton_loop e thr n F s1))) by (eapply nl_same_trans; eassumption).
  destruct (newton_loop e thr n F s1) as [s2 [[E l]|]]; [|exact H3].
  assert (H4 := solve_fields_nl_same e true false (compute_nl E s2)).
  assert (H5: nl_same s (fst (solve_fields e true false (compute_nl E s2)))).
  { eapply nl_same_trans; [exact H3|]. eapply nl_same_trans; [apply (compute_nl_inv E)|exact H4]. }
  destruct (solve_fields e true false (compute_nl E s2)) as [s4 [G|]]; [destruct n|]; exact H5.
Qed.
Lemma krylov_nl e Es thr n av s : nl_same s (fst (newton_krylov_solve e Es thr n av s)).
Proof.
  unfold newton_krylov_solve. assert (H := start_field_nl e Ez Es s).
  destruct (start_field e Ez Es s) as [s1 [F|]]; [|exact H].
  assert (H2 := nl_eq_nl F s1). destruct (nl_eq_and_jac F s1) as [s2 [G|]].
  - destruct (e_krylov e _ F) as [E El]. eapply nl_same_trans; [exact H|]. eapply nl_same_trans; [exact H2|].
    apply (compute_nl_inv El).
  - eapply nl_same_trans; [exact H|exact H2].
Qed.
Lemma run_solver_nl_nl e av Es name thr n s : nl_same s (fst (run_solver_nl e av Es name thr n s)).
Proof.
  unfold run_solver_nl.
  destruct (String.eqb name "born"); [apply born_solve_nl|].
  destruct (String.eqb name "newton"); [apply newton_solve_nl|].
  destruct (String.eqb name "LM"); [apply nl_same_refl|].
  destruct (String.eqb name "krylov"); [apply krylov_nl|].
  destruct (String.eqb name "hybrid"); [|apply nl_same_refl].
  assert (H := born_solve_nl e Es thr 20 av s). destruct (born_solve e Es thr 20 av s) as [s1 [[F conv]|]]; [|exact H].
  destruct (last_conv conv) as [c|]; [|exact H].
  destruct (xgt c _); [|exact H]. eapply nl_same_trans; [exact H|apply newton_solve_nl].
Qed.
Lemma solve_nl_nl e av Es name thr n s : nl_same s (fst (solve_fields_nl e av Es name thr n s)).
Proof.
  unfold solve_fields_nl. assert (H := run_solver_nl_nl e av Es name thr n s).
  destruct (run_solver_nl e av Es name thr n s) as [s1 [[F conv]|]]; exact H.
Qed.
Lemma run_op_nl e o s : nl_same s (run_op e o s).
Proof.
  destruct o; cbn [run_op]; try (apply nl_same_eq; reflexivity).
  - apply solve_fields_nl_same.
  - apply solve_nl_nl.
  - unfold add_nl, bind, getS, lift, putS. destruct (Nonlinearity _ _ _ _ _); apply nl_same_eq; reflexivity.
  - apply compute_nl_inv.
  - unfold init_design_region. destruct (init_eps _ _ _ _ _); apply nl_same_eq; reflexivity.
  - destruct (index_shift_state e s) as [s1 [E1 E2]].
    assert (H1: nl_same s s1) by (rewrite <- E1; apply solve_fields_nl_same).
    destruct E2 as [-> | ->]; [assumption|]. eapply nl_same_trans; [exact H1|apply solve_nl_nl].
Qed.
Lemma run_ops_nl e l : forall s, nl_same s (run_ops e l s).
Proof.
  induction l as [|o l IH]; intros s; [apply nl_same_refl|]. simpl.
  eapply nl_same_trans; [apply run_op_nl|apply IH].
Qed.

(** reachable states *)
Definition reachable (e : env) (s : sim) : Prop :=
  exists omega eps dl NPML p L0 s0 l,
    (0 < dl)%R /\ (0 < nd_nx eps)%nat /\ (0 < nd_ny eps)%nat /\
    Simulation omega eps dl NPML p L0 = Ok s0 /\
    s = run_ops e l s0.

(** the array currently held by the simulation is non-empty *)
Lemma Simulation_physical omega eps dl np p L0 s :
  (0 < dl)%R -> (0 < nd_nx eps)%nat -> (0 < nd_ny eps)%nat ->
  Simulation omega eps dl np p L0 = Ok s -> physical s.
Proof.
  intros Hd Hx Hy. unfold Simulation. destruct (check_inputs L0 omega np p) eqn:E; [|discriminate].
  intro H; injection H as <-. unfold check_inputs in E.
  destruct (Rlt_dec 0 L0); [|discriminate]. destruct (Rlt_dec 0 omega); [|discriminate].
  unfold physical, set_eps; simpl.
  assert (0 < INR (nd_nx eps))%R by (apply lt_0_INR; assumption).
  assert (0 < INR (nd_ny eps))%R by (apply lt_0_INR; assumption).
  repeat split; try assumption; apply Rmult_lt_0_compat; assumption.
Qed.
Lemma reachable_physical e s : reachable e s -> (0 < s_Nx s)%nat -> (0 < s_Ny s)%nat -> physical s.
Proof.
  intros (omega & eps & dl & np & p & L0 & s0 & l & Hd & Hx & Hy & HS & ->) H1 H2.
  assert (H0 := Simulation_physical _ _ _ _ _ _ _ Hd Hx Hy HS).
  assert (HP := run_ops_params e l s0). unfold same_params in HP. unfold physical in *.
  destruct HP as (-> & -> & _ & _ & _ & -> & ->). intuition.
Qed.
Lemma reachable_consistent e s : reachable e s -> consistent s.
Proof.
  intros (omega & eps & dl & np & p & L0 & s0 & l & Hd & Hx & Hy & HS & ->).
  apply run_ops_consistent. eapply Simulation_consistent; eassumption.
Qed.
Lemma reachable_nl e s : reachable e s -> nl_inv s.
Proof.
  intros (omega & eps & dl & np & p & L0 & s0 & l & Hd & Hx & Hy & HS & ->).
  apply (run_ops_nl e l s0). unfold Simulation in HS. destruct (check_inputs _ _ _ _); [|discriminate].
  injection HS as <-. exact I.
Qed.

Lemma consistent_A s : consistent s ->
  s_A s = fst (construct_A (s_omega s) (s_xrange s) (s_yrange s) (s_Nx s) (s_Ny s) (s_epsC s)
      (s_NPML s) (s_pol s) (s_L0 s) true) /\
  s_derivs s = make_derivs (s_omega s) (s_L0 s) (s_Nx s) (s_Ny s) (s_NPML s) (s_xrange s) (s_yrange s).
Proof.
  intros (E1 & E2 & E3). rewrite E1, E2. split.
  - change (s_A s) with (fst (s_A s, s_derivs s)). rewrite E3; reflexivity.
  - change (s_derivs s) with (snd (s_A s, s_derivs s)). rewrite E3. unfold construct_A. destruct (s_pol s); reflexivity.
Qed.

(* ------------------------------------------------------------------ *)
(** ** Maxwell equations *)

Lemma mv_construct_Ez omega L0 Nx Ny NPML xr yr eps av X k : (k < Nx * Ny)%nat ->
  let D := make_derivs omega L0 Nx Ny NPML xr yr in
  mv (Nx * Ny) (fst (construct_A omega xr yr Nx Ny eps NPML PolEz L0 av)) X k =
  (RtoC (1 / (MU_0 * L0)) * (mv (Nx * Ny) (Dxf D) (mv (Nx * Ny) (Dxb D) X) k
     + mv (Nx * Ny) (Dyf D) (mv (Nx * Ny) (Dyb D) X) k)
   + RtoC (omega ^ 2) * (RtoC (EPSILON_0 * L0) * eps k) * X k)%C.
Proof.
  intros Hk D. simpl. rewrite !mv_mplus, !mv_mm, !mv_mscal. unfold spdiags. rewrite mv_diag by assumption. ring.
Qed.
Lemma mv_construct_Hz omega L0 Nx Ny NPML xr yr eps av X k : (k < Nx * Ny)%nat ->
  let D := make_derivs omega L0 Nx Ny NPML xr yr in
  mv (Nx * Ny) (fst (construct_A omega xr yr Nx Ny eps NPML PolHz L0 av)) X k =
  (mv (Nx * Ny) (Dxf D) (fun j => / eps_dir AxX av L0 Nx Ny eps j * mv (Nx * Ny) (Dxb D) X j) k
   + mv (Nx * Ny) (Dyf D) (fun j => / eps_dir AxY av L0 Nx Ny eps j * mv (Nx * Ny) (Dyb D) X j) k
   + RtoC (omega ^ 2 * (MU_0 * L0)) * X k)%C.
Proof.
  intros Hk D. simpl. rewrite !mv_mplus, !mv_mm, !mv_mscal. unfold sp_eye. rewrite mv_Id by assumption.
  f_equal. f_equal; (apply mv_ext_v; intros j Hj; unfold spdiags; rewrite mv_diag by assumption; reflexivity).
Qed.

Lemma maxwell_Ez_of_solve omega L0 Nx Ny NPML xr yr eps J X :
  (0 < omega)%R -> (0 < L0)%R ->
  let M := (Nx * Ny)%nat in
  let D := make_derivs omega L0 Nx Ny NPML xr yr in
  solves M (fst (construct_A omega xr yr Nx Ny eps NPML PolEz L0 true)) X
    (fun k => (J k * Ci * RtoC omega)%C) ->
  maxwell_Ez M (Dxf D) (Dxb D) (Dyf D) (Dyb D) omega (MU_0 * L0)
    (fun k => (RtoC (EPSILON_0 * L0) * eps k)%C) J
    (vscal (- RtoC 1 / Ci / RtoC omega / RtoC (MU_0 * L0))%C (mv M (Dyb D) X))
    (vscal (RtoC 1 / Ci / RtoC omega / RtoC (MU_0 * L0))%C (mv M (Dxb D) X)) X.
Proof.
  intros Ho HL M D HS k Hk.
  assert (Hmu: (MU_0 * L0 <> 0)%R) by (apply Rgt_not_eq, Rmult_lt_0_compat; [apply MU_0_pos|lra]).
  assert (HmuC := RtoC_neq0 _ Hmu).
  assert (HoC: RtoC omega <> RtoC 0) by (apply RtoC_neq0; lra).
  assert (HCi := Ci_neq0).
  assert (HMu0: RtoC MU_0 <> RtoC 0) by (apply RtoC_neq0; apply Rgt_not_eq, MU_0_pos).
  assert (HL0: RtoC L0 <> RtoC 0) by (apply RtoC_neq0; lra).
  repeat split.
  - unfold vscal. rewrite RtoC_mult. field. auto.
  - unfold vscal. rewrite RtoC_mult. field. auto.
  - rewrite !mv_vscal.
    assert (E := HS k Hk). change (csum M _) with (mv M (fst (construct_A omega xr yr Nx Ny eps NPML PolEz L0 true)) X k) in E.
    unfold M in E. rewrite mv_construct_Ez in E by assumption. cbv zeta in E. fold D M in E.
    set (a := mv M (Dxf D) (mv M (Dxb D) X) k) in *. set (b := mv M (Dyf D) (mv M (Dyb D) X) k) in *.
    assert (E2: (RtoC (1 / (MU_0 * L0)) * (a + b) =
                 J k * Ci * RtoC omega - RtoC (omega ^ 2) * (RtoC (EPSILON_0 * L0) * eps k) * X k)%C).
    { rewrite <- E. ring. }
    rewrite RtoC_div in E2 by assumption.
    transitivity ((RtoC 1 / RtoC (MU_0 * L0) * (a + b)) * (RtoC 1 / Ci / RtoC omega))%C.
    { field. auto. }
    rewrite E2. replace (omega ^ 2)%R with (omega * omega)%R by ring. rewrite (RtoC_mult omega).
    assert (HC2: (RtoC 1 / Ci)%C = (- Ci)%C) by (unfold Cdiv; rewrite Cinv_Ci; ring).
    rewrite HC2.
    transitivity (- (Ci * Ci) * J k + Ci * RtoC omega * (RtoC (EPSILON_0 * L0) * eps k) * X k)%C; [field; assumption|].
    rewrite Ci_sqr. ring.
Qed.

Lemma maxwell_Hz_of_solve omega L0 Nx Ny NPML xr yr eps av J X :
  (0 < omega)%R -> (0 < L0)%R ->
  let M := (Nx * Ny)%nat in
  let D := make_derivs omega L0 Nx Ny NPML xr yr in
  let ex := eps_dir AxX av L0 Nx Ny eps in
  let ey := eps_dir AxY av L0 Nx Ny eps in
  (forall k, (k < M)%nat -> ex k <> RtoC 0 /\ ey k <> RtoC 0) ->
  solves M (fst (construct_A omega xr yr Nx Ny eps NPML PolHz L0 av)) X
    (fun k => (J k * Ci * RtoC omega)%C) ->
  maxwell_Hz M (Dxf D) (Dxb D) (Dyf D) (Dyb D) omega (MU_0 * L0) ey ex J
    (vscal (RtoC 1 / Ci / RtoC omega)%C (mv M (mm M (spdiags (fun k => (/ ey k)%C)) (Dyb D)) X))
    (vscal (- RtoC 1 / Ci / RtoC omega)%C (mv M (mm M (spdiags (fun k => (/ ex k)%C)) (Dxb D)) X)) X.
Proof.
  intros Ho HL M D ex ey He HS k Hk.
  assert (HoC: RtoC omega <> RtoC 0) by (apply RtoC_neq0; lra).
  assert (HCi := Ci_neq0). destruct (He k Hk) as [Hex Hey].
  repeat split.
  - unfold vscal. rewrite mv_mm. unfold spdiags. rewrite mv_diag by assumption. field. auto.
  - unfold vscal. rewrite mv_mm. unfold spdiags. rewrite mv_diag by assumption. field. auto.
  - rewrite !mv_vscal.
    assert (E := HS k Hk). change (csum M _) with (mv M (fst (construct_A omega xr yr Nx Ny eps NPML PolHz L0 av)) X k) in E.
    unfold M in E. rewrite mv_construct_Hz in E by assumption. cbv zeta in E. fold D M in E.
    rewrite (mv_ext_v M (Dyf D) _ (fun j => (/ ey j * mv M (Dyb D) X j)%C)).
    2:{ intros j Hj. rewrite mv_mm. unfold spdiags. rewrite mv_diag by assumption. reflexivity. }
    rewrite (mv_ext_v M (Dxf D) _ (fun j => (/ ex j * mv M (Dxb D) X j)%C)).
    2:{ intros j Hj. rewrite mv_mm. unfold spdiags. rewrite mv_diag by assumption. reflexivity. }
    fold ex ey in E.
    set (a := mv M (Dxf D) _ k) in *. set (b := mv M (Dyf D) _ k) in *.
    assert (E2: (a + b = J k * Ci * RtoC omega - RtoC (omega ^ 2 * (MU_0 * L0)) * X k)%C).
    { rewrite <- E. ring. }
    transitivity ((a + b) * (RtoC 1 / Ci / RtoC omega))%C.
    { field. auto. }
    rewrite E2. replace (omega ^ 2 * (MU_0 * L0))%R with (omega * (omega * (MU_0 * L0)))%R by ring. rewrite !(RtoC_mult omega).
    assert (HC2: (RtoC 1 / Ci)%C = (- Ci)%C) by (unfold Cdiv; rewrite Cinv_Ci; ring).
    rewrite HC2.
    transitivity (- (Ci * Ci) * J k + Ci * RtoC omega * RtoC (MU_0 * L0) * X k)%C; [field; assumption|].
    rewrite Ci_sqr. ring.
Qed.

(** ** nonlinear permittivity *)
Lemma Anl_is_eps omega L0 Nx Ny NPML xr yr eps (en : rvec) av av' :
  meq (Nx * Ny)
    (mplus (fst (construct_A omega xr yr Nx Ny eps NPML PolEz L0 av))
           (spdiags (fun k => RtoC (omega ^ 2 * EPSILON_0 * L0 * en k))))
    (fst (construct_A omega xr yr Nx Ny (fun k => (eps k + RtoC (en k))%C) NPML PolEz L0 av')).
Proof.
  intros r c Hr Hc. simpl. unfold mplus, mscal, spdiags, mdiag.
  destruct (Nat.eqb r c); [|ring]. rewrite !RtoC_mult. ring.
Qed.
