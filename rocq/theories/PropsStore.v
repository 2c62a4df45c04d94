(** C74: fields that a simulation holds belong to its present permittivity. *)
From Coq Require Import Reals Lra Lia List ZArith Arith Bool String FunctionalExtensionality.
From Coquelicot Require Import Coquelicot.
From Verif Require Import Base Linear MCore MSim Spec PCore PSim PEx PropsCore PropsSolve PropsIter MFilter MOpt PGrad POpt.
Import ListNotations.
Local Open Scope nat_scope.

(** *** The nonlinear solvers do not touch the stored nonlinear fields *)
Lemma krylov_U d e Es thr n av : commutes d (newton_krylov_solve e Es thr n av).
Proof.
  intro s. unfold newton_krylov_solve. rewrite (start_field_U d). destruct (start_field e Ez Es s) as [s1 [F|x]]; cbn [fst snd]; [|reflexivity].
  assert (HN: nl_eq_and_jac F (upd_fields_nl d s1) = (upd_fields_nl d (fst (nl_eq_and_jac F s1)), snd (nl_eq_and_jac F s1))).
  { unfold nl_eq_and_jac. change (s_pol (upd_fields_nl d s1)) with (s_pol s1). destruct (s_pol s1); [|reflexivity].
    change (nd_size (s_src (upd_fields_nl d s1))) with (nd_size (s_src s1)). change (s_M (upd_fields_nl d s1)) with (s_M s1).
    destruct (Nat.eqb _ _); reflexivity. }
  rewrite HN. destruct (nl_eq_and_jac F s1) as [s2 [G|x]]; cbn [fst snd]; [|reflexivity].
  change (nl_residual (upd_fields_nl d s2)) with (nl_residual s2). destruct (e_krylov e (nl_residual s2) F) as [E El]. reflexivity.
Qed.
Lemma run_solver_nl_U d e av Es name thr n : commutes d (run_solver_nl e av Es name thr n).
Proof.
  unfold run_solver_nl. destruct (String.eqb name "born"); [apply born_solve_U|]. destruct (String.eqb name "newton"); [apply newton_solve_U|].
  destruct (String.eqb name "LM"); [intro s; reflexivity|]. destruct (String.eqb name "krylov"); [apply krylov_U|].
  destruct (String.eqb name "hybrid"); [|intro s; reflexivity].
  intro s. rewrite born_solve_U. destruct (born_solve e Es thr 20 av s) as [s1 [[F conv]|x]]; cbn [fst snd]; [|reflexivity].
  destruct (last_conv conv) as [c|]; [|reflexivity]. destruct (xgt _ _); [|reflexivity]. rewrite newton_solve_U. reflexivity.
Qed.
Lemma run_solver_nl_fields_nl e av Es name thr n s s1 r :
  run_solver_nl e av Es name thr n s = (s1, r) -> s_fields_nl s1 = s_fields_nl s.
Proof.
  intro H. assert (HU := run_solver_nl_U (s_fields_nl s) e av Es name thr n s). rewrite H in HU.
  replace (upd_fields_nl (s_fields_nl s) s) with s in HU by (destruct s; reflexivity). rewrite H in HU. cbn [fst snd] in HU.
  apply (f_equal (fun p => s_fields_nl (fst p))) in HU. cbn in HU. exact HU.
Qed.

(** *** Specification *)
(** [F] was returned by a call of solve_fields_nl made at some point of a history of s0;
    the permittivity and the matrix then were those of s *)
Definition from_nl_solve (e : env) (s0 s : sim) (F : vec * vec * vec) : Prop :=
  exists l av Es name thr n s1 conv,
    solve_fields_nl e av Es name thr n (run_ops e l s0) = (s1, Ok (F, conv)) /\
    s_eps (run_ops e l s0) = s_eps s /\ s_A (run_ops e l s0) = s_A s.
Definition C74_nl_fields (e : env) (s0 s : sim) : Prop :=
  (forall c, s_fields_nl s c = None) \/
  exists F, from_nl_solve e s0 s F /\
    s_fields_nl s (comp1 (s_pol s)) = Some (fst (fst F)) /\ s_fields_nl s (comp2 (s_pol s)) = Some (snd (fst F)) /\
    s_fields_nl s (pol_comp (s_pol s)) = Some (snd F).

(** assigning the permittivity discards all fields, whatever the simulation held *)
Theorem C74_assignment_discards_fields :
  forall e s a c, s_fields (run_ops e [SetEps a] s) c = None /\ s_fields_nl (run_ops e [SetEps a] s) c = None.
Proof. intros. split; reflexivity. Qed.
(** so does initialising the design region, with every style that does something *)
Theorem C74_init_discards_fields :
  forall e s d em st rnd, In st ["full"; "halfway"; "empty"; "random"; "random_sym"]%string ->
  forall c, s_fields (run_ops e [InitDesign d em st rnd] s) c = None /\ s_fields_nl (run_ops e [InitDesign d em st rnd] s) c = None.
Proof.
  intros e s d em st rnd H c. cbn [run_ops fold_left run_op]. unfold init_design_region.
  destruct (init_eps rnd d em st (s_eps s)) eqn:E; [split; reflexivity|]. exfalso.
  unfold init_eps in E. repeat (destruct H as [<-|H]; [discriminate E|]). destruct H.
Qed.

Lemma nl_fields_step e s0 s s' : s_fields_nl s' = s_fields_nl s -> same_problem s s' ->
  C74_nl_fields e s0 s -> C74_nl_fields e s0 s'.
Proof.
  intros E H [HN|(F & (l & av & Es & name & thr & n & s1 & conv & H1 & H2 & H3) & G1 & G2 & G3)].
  - left. intro c. rewrite E. apply HN.
  - unfold same_problem in H. right. exists F. assert (EP: s_pol s' = s_pol s) by intuition. rewrite EP, !E. repeat split; try assumption.
    exists l, av, Es, name, thr, n, s1, conv. intuition congruence.
Qed.
Lemma nl_solve_nl_fields e s0 l av Es name thr n s' r :
  solve_fields_nl e av Es name thr n (run_ops e l s0) = (s', r) ->
  C74_nl_fields e s0 (run_ops e l s0) -> C74_nl_fields e s0 s'.
Proof.
  intros H HI. assert (H' := H). assert (HS := H). apply solve_nl_step in HS as [HS _].
  unfold solve_fields_nl in H. destruct (run_solver_nl e av Es name thr n (run_ops e l s0)) as [s1 [[F conv]|x]] eqn:E.
  - injection H as <- <-. right. exists F. split.
    + exists l, av, Es, name, thr, n, (upd_fields_nl (store3 (s_pol s1) (s_fields_nl s1) F) s1), conv.
      unfold same_problem in HS. intuition congruence.
    + cbn [upd_fields_nl s_fields_nl s_pol]. destruct F as [[a b] c]. destruct (s_pol s1); repeat split.
  - injection H as <- <-. eapply nl_fields_step; [eapply run_solver_nl_fields_nl; exact E|exact HS|exact HI].
Qed.
Lemma solve_fields_nl_kept e inc av s : s_fields_nl (fst (solve_fields e inc av s)) = s_fields_nl s.
Proof.
  unfold solve_fields. destruct (if inc then _ else _) as [A|x]; [|reflexivity]. destruct (negb _); [reflexivity|].
  destruct (solver_direct _ _ _ _ _) as [X|]; [|reflexivity]. destruct (derived_fields s _ av X) as [a c]. destruct inc; reflexivity.
Qed.
Lemma run_ops_snoc e l o s : run_ops e (l ++ [o])%list s = run_op e o (run_ops e l s).
Proof. unfold run_ops. rewrite fold_left_app. reflexivity. Qed.

(** After any history, fields held as nonlinear are exactly the three fields that a call
    of solve_fields_nl returned for the present permittivity and system matrix. *)
Theorem C74_nonlinear_fields_of_present_structure :
  forall e omega eps dl NPML p L0 s0 l,
  Simulation omega eps dl NPML p L0 = Ok s0 -> C74_nl_fields e s0 (run_ops e l s0).
Proof.
  intros e omega eps dl NPML p L0 s0 l HS. induction l as [|o l IH] using rev_ind.
  - left. intro c. cbn [run_ops fold_left]. unfold Simulation in HS. destruct (check_inputs _ _ _ _); [|discriminate]. injection HS as <-. reflexivity.
  - rewrite run_ops_snoc. set (s := run_ops e l s0) in *. destruct o; cbn [run_op].
    + left. intro c. reflexivity.
    + destruct IH as [HN|(F & (l' & av & Es & name & thr & n & s1 & conv & H1 & H2 & H3) & G)]; [left; exact HN|].
      right. exists F. split; [|exact G]. exists l', av, Es, name, thr, n, s1, conv. repeat split; assumption.
    + eapply nl_fields_step; [apply solve_fields_nl_kept|apply solve_fields_same|exact IH].
    + destruct (solve_fields_nl e av Es name thr n s) as [s' r] eqn:E. cbn [fst]. eapply nl_solve_nl_fields; [exact E|exact IH].
    + unfold add_nl, bind, getS, lift, putS. destruct (Nonlinearity _ _ _ _ _) as [q|x]; cbn [fst]; [|exact IH].
      destruct IH as [HN|(F & (l' & av & Es & name & thr & n & s1 & conv & H1 & H2 & H3) & G)]; [left; exact HN|].
      right. exists F. split; [|exact G]. exists l', av, Es, name, thr, n, s1, conv. repeat split; assumption.
    + destruct IH as [HN|(F & (l' & av & Es & name & thr & n & s1 & conv & H1 & H2 & H3) & G)]; [left; exact HN|].
      right. exists F. split; [|exact G]. exists l', av, Es, name, thr, n, s1, conv. repeat split; assumption.
    + apply (nl_fields_step e s0 s); [reflexivity|apply compute_nl_same|exact IH].
    + unfold init_design_region. destruct (init_eps _ _ _ _ _); [left; intro c; reflexivity|].
      destruct IH as [HN|(F & (l' & av & Es & name & thr & n & s1 & conv & H1 & H2 & H3) & G)]; [left; exact HN|].
      right. exists F. split; [|exact G]. exists l', av, Es, name, thr, n, s1, conv. repeat split; assumption.
    + assert (I1: C74_nl_fields e s0 (fst (solve_fields e false false s))).
      { eapply nl_fields_step; [apply solve_fields_nl_kept|apply solve_fields_same|exact IH]. }
      destruct (index_shift_state e s) as (s1 & <- & [-> | ->]); [exact I1|].
      assert (E1: fst (solve_fields e false false s) = run_ops e (l ++ [Solve false false])%list s0) by (rewrite run_ops_snoc; reflexivity).
      rewrite E1 in I1 |- *. unfold solve_fields_nl_default.
      destruct (solve_fields_nl e false None "hybrid" (1 / 10 ^ 10)%R 50 _) as [s' r] eqn:E. cbn [fst]. eapply nl_solve_nl_fields; [exact E|exact I1].
Qed.

(** *** What a solve returns is what is stored, under the documented names *)
Definition holds (d : fdict) (p : pol) (F : vec * vec * vec) : Prop :=
  let '(a, b, c) := F in
  match p with
  | PolEz => d Hx = Some a /\ d Hy = Some b /\ d Ez = Some c
  | PolHz => d Ex = Some a /\ d Ey = Some b /\ d Hz = Some c
  end.
Theorem C74_results_are_stored :
  forall e s,
  (forall av s' F, solve_fields e false av s = (s', Ok F) ->
     holds (s_fields s') (s_pol s) F /\ s_fields_nl s' = s_fields_nl s) /\
  (forall av Es name thr n s' F conv, solve_fields_nl e av Es name thr n s = (s', Ok (F, conv)) ->
     holds (s_fields_nl s') (s_pol s) F) /\
  (forall inc av s' x, solve_fields e inc av s = (s', Raise x) -> s' = s).
Proof.
  intros e s. split; [|split].
  - intros av s' F H. assert (K := solve_fields_nl_kept e false av s). rewrite H in K. cbn [fst] in K. split; [|exact K].
    unfold solve_fields in H. destruct (negb _); [discriminate|]. destruct (solver_direct _ _ _ _ _) as [X|]; [|discriminate].
    destruct (derived_fields s _ av X) as [a c]. injection H as <- <-. unfold holds. cbn [upd_fields s_fields]. destruct (s_pol s); repeat split.
  - intros av Es name thr n s' F conv H. assert (HS := H). apply solve_nl_step in HS as [HS _].
    unfold solve_fields_nl in H. destruct (run_solver_nl e av Es name thr n s) as [s1 [[G cv]|x]] eqn:E; [|discriminate].
    injection H as <- <- <-. assert (EP: s_pol s1 = s_pol s) by (unfold same_problem in HS; cbn [upd_fields_nl s_pol] in HS; intuition congruence).
    rewrite EP. destruct G as [[a b] c]. unfold holds. cbn [upd_fields_nl s_fields_nl]. destruct (s_pol s); repeat split.
  - intros inc av s' x H. unfold solve_fields in H. destruct (if inc then _ else _) as [A|y]; [|injection H; congruence].
    destruct (negb _); [injection H; congruence|]. destruct (solver_direct _ _ _ _ _) as [X|]; [|injection H; congruence].
    destruct (derived_fields s _ av X) as [a c]. discriminate.
Qed.

(** A history that leaves nonlinear fields in the simulation. *)
Example C74_met : exists s X, s = run_ops ex_env [SolveNl false None "born" (1 / 10 ^ 10)%R 3] (ex_s "Ez") /\
  s_fields_nl s Ez = Some X /\ C74_nl_fields ex_env (ex_s "Ez") s.
Proof.
  assert (HS := ex_s_eq "Ez" ltac:(auto)).
  set (s := run_ops ex_env [SolveNl false None "born" (1 / 10 ^ 10)%R 3] (ex_s "Ez")).
  assert (HI: C74_nl_fields ex_env (ex_s "Ez") s) by (eapply C74_nonlinear_fields_of_present_structure; exact HS).
  destruct (ex_fields "Ez") as (E1 & E2 & E3 & E4); [auto|].
  destruct (born_solve_runs ex_env None (1 / 10 ^ 10)%R 3 false (ex_s "Ez")) as (s1 & F & conv & H & HP).
  { rewrite E4. unfold ex_sim_res, Simulation in HS. destruct (check_inputs _ _ _ _); [|discriminate]. injection HS as <-. reflexivity. }
  { lia. }
  exists s, (snd F). split; [reflexivity|]. split; [|exact HI].
  assert (Es: s = upd_fields_nl (store3 (s_pol s1) (s_fields_nl s1) F) s1).
  { unfold s. cbn [run_ops fold_left run_op]. unfold solve_fields_nl, run_solver_nl. cbn [String.eqb Ascii.eqb Bool.eqb]. rewrite H. reflexivity. }
  rewrite Es. cbn [upd_fields_nl s_fields_nl]. assert (EP: s_pol s1 = PolEz).
  { unfold same_problem in HP. assert (Q := HS). apply Simulation_fields in Q. destruct HP as (_ & _ & _ & -> & _). apply Q. reflexivity. }
  rewrite EP. destruct F as [[a b] c]. reflexivity.
Qed.
