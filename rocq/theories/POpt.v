(** Frame lemmas for the methods of Optimization: what each of them leaves alone, and
    that a fresh evaluation of the objective depends only on the problem. *)
From Coq Require Import Reals Lra Lia List ZArith Arith Bool String FunctionalExtensionality.
From Coquelicot Require Import Coquelicot.
From Verif Require Import Base Linear MCore MSim Spec PCore PSim PropsIter MFilter MOpt PGrad.
Import ListNotations.
Local Open Scope nat_scope.

(** the settings of an optimization: everything but its records and its cache *)
Definition cfg (o o' : opt) : Prop :=
  o_objective o' = o_objective o /\ o_design o' = o_design o /\ o_W o' = o_W o /\ o_eta o' = o_eta o /\
  o_beta o' = o_beta o /\ o_eps_m o' = o_eps_m o /\ o_field_start o' = o_field_start o /\ o_nl_solver o' = o_nl_solver o /\
  o_max_shift o' = o_max_shift o.
Lemma cfg_refl o : cfg o o. Proof. repeat split. Qed.
Lemma cfg_trans a b c : cfg a b -> cfg b c -> cfg a c.
Proof. unfold cfg. intuition congruence. Qed.
(** ** Stored fields do not influence a fresh value *)
(** the nonlinear solvers never read the stored nonlinear fields *)
Section StoredNl.
Variable d : fdict.
Let U := upd_fields_nl d.
Definition commutes {A} (m : St sim A) : Prop := forall s, m (U s) = (U (fst (m s)), snd (m s)).
Lemma compute_nl_U F s : compute_nl F (U s) = U (compute_nl F s).
Proof. reflexivity. Qed.
Lemma solve_fields_U e b av : commutes (solve_fields e b av).
Proof.
  intro s. unfold solve_fields. change (s_Anl (U s)) with (s_Anl s). change (s_M (U s)) with (s_M s). change (s_A (U s)) with (s_A s).
  change (nd_size (s_src (U s))) with (nd_size (s_src s)). change (rhs (U s)) with (rhs s).
  destruct (if b then _ else _) as [A|x]; [|reflexivity]. destruct (negb _); [reflexivity|].
  destruct (solver_direct _ _ _ _ _) as [X|]; [|reflexivity].
  change (derived_fields (U s)) with (derived_fields s). change (s_epsC (U s)) with (s_epsC s). change (s_eps_nl (U s)) with (s_eps_nl s).
  destruct (derived_fields s _ av X) as [a c]. destruct b; reflexivity.
Qed.
Lemma start_field_U e c Es : commutes (start_field e c Es).
Proof.
  intro s. unfold start_field. destruct Es; [reflexivity|]. change (s_fields (U s) c) with (s_fields s c).
  destruct (s_fields s c); [reflexivity|]. rewrite (solve_fields_U e false false s). destruct (solve_fields e false false s) as [s1 [[[a b] F]|x]]; reflexivity.
Qed.
Lemma born_loop_U e thr n : forall F, commutes (born_loop e thr n F).
Proof.
  induction n as [|n IH]; intros F s; [reflexivity|]. cbn [born_loop]. rewrite compute_nl_U, (solve_fields_U e true false).
  destruct (solve_fields e true false (compute_nl F s)) as [s2 [[[a b] Fn]|x]]; cbn [fst snd]; [|reflexivity].
  change (s_M (U s2)) with (s_M s2). destruct (xlt _ _); [reflexivity|]. rewrite (IH Fn s2).
  destruct (born_loop e thr n Fn s2) as [s3 [[[G|] l]|x]]; reflexivity.
Qed.
Lemma born_solve_U e Es thr n av : commutes (born_solve e Es thr n av).
Proof.
  intro s. unfold born_solve. change (s_pol (U s)) with (s_pol s). rewrite start_field_U.
  destruct (start_field e _ Es s) as [s1 [F|x]]; cbn [fst snd]; [|reflexivity]. rewrite born_loop_U.
  destruct (born_loop e thr n F s1) as [s2 [[[G|] l]|x]]; reflexivity.
Qed.
Lemma newton_loop_U e thr n : forall E, commutes (newton_loop e thr n E).
Proof.
  induction n as [|n IH]; intros E s; [reflexivity|]. cbn [newton_loop].
  assert (HN: nl_eq_and_jac E (U s) = (U (fst (nl_eq_and_jac E s)), snd (nl_eq_and_jac E s))).
  { unfold nl_eq_and_jac. change (s_pol (U s)) with (s_pol s). destruct (s_pol s); [|reflexivity].
    change (nd_size (s_src (U s))) with (nd_size (s_src s)). change (s_M (U s)) with (s_M s). destruct (Nat.eqb _ _); reflexivity. }
  rewrite HN. destruct (nl_eq_and_jac E s) as [s1 [[[f J1] J2]|x]]; cbn [fst snd]; [|reflexivity].
  change (s_M (U s1)) with (s_M s1). destruct (solver_complex2real _ _ _ _ _ _) as [dd|]; [|reflexivity].
  cbv zeta. destruct (xlt _ _); [reflexivity|]. rewrite IH. destruct (newton_loop e thr n (vminus E dd) s1) as [s2 [[E' l]|x]]; reflexivity.
Qed.
Lemma newton_solve_U e Es thr n av : commutes (newton_solve e Es thr n av).
Proof.
  intro s. unfold newton_solve. change (s_pol (U s)) with (s_pol s). destruct (s_pol s); [|reflexivity]. rewrite start_field_U.
  destruct (start_field e Ez Es s) as [s1 [F|x]]; cbn [fst snd]; [|reflexivity]. rewrite newton_loop_U.
  destruct (newton_loop e thr n F s1) as [s2 [[G l]|x]]; cbn [fst snd]; [|reflexivity]. cbv zeta. rewrite compute_nl_U, solve_fields_U.
  destruct (solve_fields e true false (compute_nl G s2)) as [s3 [K|x]]; cbn [fst snd]; [|reflexivity]. destruct n; reflexivity.
Qed.
Lemma hybrid_U e av Es thr n : commutes (run_solver_nl e av Es "hybrid" thr n).
Proof.
  intro s. rewrite hybrid_unfold, born_solve_U. destruct (born_solve e Es thr 20 av s) as [s1 [[F conv]|x]]; cbn [fst snd]; [|reflexivity].
  destruct (last_conv conv) as [c|]; [|reflexivity]. destruct (xgt _ _); [|reflexivity]. rewrite newton_solve_U. reflexivity.
Qed.
End StoredNl.
(** component of the given polarization *)
Definition of_pol (p : pol) (c : comp) : Prop := c = pol_comp p \/ c = comp1 p \/ c = comp2 p.
Lemma store3_off p d d' F : (forall c, ~ of_pol p c -> d c = d' c) -> store3 p d F = store3 p d' F.
Proof.
  intro H. apply functional_extensionality. intro c. destruct F as [[x y] z]. unfold store3, fset.
  destruct (comp_eqb (pol_comp p) c) eqn:E1; [reflexivity|]. destruct (comp_eqb (comp2 p) c) eqn:E2; [reflexivity|]. destruct (comp_eqb (comp1 p) c) eqn:E3; [reflexivity|].
  apply H. intros [-> | [-> | ->]]; rewrite comp_eqb_refl in *; discriminate.
Qed.
(** no components of the other polarization are stored (true of every simulation built by
    the constructor: [tidy_Simulation]) *)
Definition tidy (s : sim) : Prop := forall c, ~ of_pol (s_pol s) c -> s_fields s c = None /\ s_fields_nl s c = None.
Definition same_tidy (s s' : sim) : Prop := same_problem s s' /\ (tidy s -> tidy s').
Lemma same_tidy_refl s : same_tidy s s. Proof. split; [apply same_refl|auto]. Qed.
Lemma same_tidy_trans a b c : same_tidy a b -> same_tidy b c -> same_tidy a c.
Proof. intros [H1 H2] [H3 H4]. split; [eapply same_trans; eassumption|auto]. Qed.
Lemma tidy_set_eps a s : tidy (set_eps a s). Proof. intros c _. split; reflexivity. Qed.
Lemma tidy_Simulation omega eps dl NPML p L0 s : Simulation omega eps dl NPML p L0 = Ok s -> tidy s.
Proof. unfold Simulation. destruct (check_inputs _ _ _ _); [|discriminate]. intro H; injection H as <-. intros c _. split; reflexivity. Qed.
Lemma store3_none p F c d : ~ of_pol p c -> store3 p d F c = d c.
Proof.
  intro H. destruct F as [[x y] z]. unfold store3, fset.
  destruct (comp_eqb (pol_comp p) c) eqn:E1; [destruct p, c; try discriminate; exfalso; apply H; unfold of_pol; auto|].
  destruct (comp_eqb (comp2 p) c) eqn:E2; [destruct p, c; try discriminate; exfalso; apply H; unfold of_pol; auto|].
  destruct (comp_eqb (comp1 p) c) eqn:E3; [destruct p, c; try discriminate; exfalso; apply H; unfold of_pol; auto|]. reflexivity.
Qed.
(** the same simulation up to its source, its fields and its nonlinear work arrays *)
Definition struct (s s' : sim) : Prop := (exists v, same_problem (upd_src v s) s') /\ (tidy s -> tidy s').
Lemma struct_same s s' : same_tidy s s' -> struct s s'.
Proof. intros [H HT]. split; [|exact HT]. exists (s_src s). unfold same_problem in *. cbn. tauto. Qed.
Lemma struct_refl s : struct s s. Proof. apply struct_same, same_tidy_refl. Qed.
Lemma struct_trans a b c : struct a b -> struct b c -> struct a c.
Proof. intros [[v H] HT] [[w H'] HT']. split; [|auto]. exists w. unfold same_problem in *. cbn in *. intuition congruence. Qed.

Lemma lin_solve_same e av s s' r : solve_fields e false av s = (s', r) -> same_problem s s' /\ s_fields_nl s' = s_fields_nl s.
Proof.
  unfold solve_fields. destruct (negb _); [intro H; injection H as <- <-; split; [apply same_refl|reflexivity]|].
  destruct (solver_direct _ _ _ _ _); [|intro H; injection H as <- <-; split; [apply same_refl|reflexivity]].
  destruct (derived_fields _ _ _ _). intro H; injection H as <- <-. split; [repeat split|reflexivity].
Qed.
Lemma lin_solve_tidy e av s s' r : solve_fields e false av s = (s', r) -> same_tidy s s'.
Proof.
  intro H. assert (H1 := lin_solve_same _ _ _ _ _ H). apply solve_fields_lin_state in H as [HS H]. split; [exact HS|]. intros HT c Hc.
  destruct H1 as [_ HN]. rewrite HN. assert (EP: s_pol s' = s_pol s) by apply HS. rewrite EP in Hc. destruct H as [(_ & -> & _)|(_ & X & _ & -> & _)]; [apply HT, Hc|].
  rewrite store3_none by exact Hc. apply HT, Hc.
Qed.
Lemma nl_solve_same e s s' r : solve_fields_nl_default e s = (s', r) -> same_problem s s'.
Proof. intro H. apply solve_nl_step in H. apply H. Qed.
Lemma hybrid_pol e s s1 r : run_solver_nl e false None "hybrid" (1 / 10 ^ 10) 50 s = (s1, r) -> s_pol s1 = s_pol s.
Proof.
  intro H. destruct (solve_fields_nl_default e s) as [s2 r2] eqn:E. assert (E' := nl_solve_same _ _ _ _ E).
  unfold solve_fields_nl_default, solve_fields_nl in E. rewrite H in E.
  destruct r as [[F conv]|x]; injection E as <- _; apply E'.
Qed.
Lemma hybrid_fields_nl e s s1 r : run_solver_nl e false None "hybrid" (1 / 10 ^ 10) 50 s = (s1, r) -> s_fields_nl s1 = s_fields_nl s.
Proof.
  intro H. assert (HU := hybrid_U (s_fields_nl s) e false None (1 / 10 ^ 10) 50 s). rewrite H in HU.
  replace (upd_fields_nl (s_fields_nl s) s) with s in HU by (destruct s; reflexivity). rewrite H in HU. cbn [fst snd] in HU.
  apply (f_equal (fun p => s_fields_nl (fst p))) in HU. cbn in HU. exact HU.
Qed.
Lemma nl_solve_tidy e s s' r : solve_fields_nl_default e s = (s', r) -> same_tidy s s'.
Proof.
  intro H. assert (HS := nl_solve_same _ _ _ _ H). split; [exact HS|]. intros HT c Hc. assert (EP: s_pol s' = s_pol s) by apply HS. rewrite EP in Hc.
  split.
  - apply solve_nl_step in H as [_ [->|(s1 & F & H & ->)]]; [apply HT, Hc|]. apply lin_solve_tidy in H as [H1 H2]. apply (H2 HT).
    assert (E1: s_pol s1 = s_pol s) by apply H1. rewrite E1. exact Hc.
  - unfold solve_fields_nl_default, solve_fields_nl in H.
    destruct (run_solver_nl e false None "hybrid" (1 / 10 ^ 10) 50 s) as [s1 [[F conv]|x]] eqn:E; assert (E1 := hybrid_pol _ _ _ _ E); apply hybrid_fields_nl in E;
    injection H as <- <-; cbn [upd_fields_nl s_fields_nl]; [rewrite store3_none by (rewrite E1; exact Hc)|]; rewrite E; apply HT, Hc.
Qed.
Lemma index_shift_same e s s' r : compute_index_shift e s = (s', r) -> same_tidy s s'.
Proof.
  unfold compute_index_shift, bind, ret, getS, lift. intro H.
  destruct (solve_fields e false false s) as [s1 [F|x]] eqn:E1; apply lin_solve_tidy in E1.
  - destruct (solve_fields_nl_default e s1) as [s2 [F2|x]] eqn:E2; apply nl_solve_tidy in E2.
    + injection H as <- <-. eapply same_tidy_trans; eassumption.
    + injection H as <- <-. eapply same_tidy_trans; eassumption.
  - injection H as <- <-. exact E1.
Qed.
Lemma solve_args_frame e o s o' s' r : solve_arg_fields e (o, s) = ((o', s'), r) ->
  cfg o o' /\ same_tidy s s' /\ o_objs o' = o_objs o /\ o_src_amps o' = o_src_amps o.
Proof.
  unfold solve_arg_fields. intro H.
  destruct (needs_solve o) as [[|]|]; [|injection H as <- <- <-; split; [apply cfg_refl|split; [apply same_tidy_refl|auto]]..].
  destruct (solve_fields e false false s) as [s1 [F|x]] eqn:E1; apply lin_solve_tidy in E1.
  2: { injection H as <- <- <-. split; [apply cfg_refl|auto]. }
  destruct (is_linear (o_objective o)).
  - destruct (arg_fields s1 _); injection H as <- <- <-; (split; [repeat split|auto]).
  - destruct (solve_fields_nl_default e s1) as [s2 [F2|x]] eqn:E2; apply nl_solve_tidy in E2.
    + destruct (arg_fields s2 _); injection H as <- <- <-; (split; [repeat split|split; [eapply same_tidy_trans; eassumption|auto]]).
    + injection H as <- <- <-. split; [apply cfg_refl|split; [eapply same_tidy_trans; eassumption|auto]].
Qed.
Lemma compute_J_frame e o s o' s' r : compute_J e (o, s) = ((o', s'), r) ->
  cfg o o' /\ same_tidy s s' /\ o_objs o' = o_objs o /\ o_src_amps o' = o_src_amps o.
Proof.
  unfold compute_J, bind, getS, lift. intro H. destruct (solve_arg_fields e (o, s)) as [[o1 s1] [[]|x]] eqn:E; apply solve_args_frame in E;
  injection H as <- <- <-; exact E.
Qed.
Lemma run_grad_frame e f o dJ F args s s' r : run_grad e f o dJ F args s = (s', r) -> same_tidy s s'.
Proof.
  destruct f; cbn [run_grad]; intro H; try (injection H as <- <-; apply same_tidy_refl).
  unfold g_kerr_Ez in H. destruct (dJ args); [|injection H as <- <-; apply same_tidy_refl].
  destruct (adjoint_kerr_Ez _ _ _); [|injection H as <- <-; apply same_tidy_refl].
  destruct F; injection H as <- <-; [split; [repeat split|auto]|apply same_tidy_refl].
Qed.
Lemma grad_loop_frame e o l : forall acc s s' r, grad_loop e o l acc s = (s', r) -> same_tidy s s'.
Proof.
  induction l as [|[[f dJ] a] l IH]; intros acc s s' r H; cbn [grad_loop] in H; [injection H as <- <-; apply same_tidy_refl|].
  destruct (run_grad _ _ _ _ _ _ _) as [s1 [g|x]] eqn:E; apply run_grad_frame in E.
  - apply IH in H. eapply same_tidy_trans; eassumption.
  - injection H as <- <-. exact E.
Qed.
Lemma compute_dJ_frame e o s o' s' r : compute_dJ e (o, s) = ((o', s'), r) ->
  cfg o o' /\ same_tidy s s' /\ o_objs o' = o_objs o /\ o_src_amps o' = o_src_amps o.
Proof.
  unfold compute_dJ. intro H. destruct (solve_arg_fields e (o, s)) as [[o1 s1] [[]|x]] eqn:E; apply solve_args_frame in E.
  - destruct (grad_loop _ _ _ _ _) as [s2 r2] eqn:E2. apply grad_loop_frame in E2. injection H as <- <- <-.
    destruct E as (E & E1 & E3). split; [exact E|]. split; [eapply same_tidy_trans; eassumption|exact E3].
  - injection H as <- <- <-. exact E.
Qed.
(** largest source amplitude *)
Definition amplitude (s : sim) : R := rmax (nd_size (s_src s)) (fun k => Cmod (nd_buf (s_src s) k)).
Lemma set_amp_frame e o s o' s' r : set_source_amplitude e (o, s) = ((o', s'), r) ->
  cfg o o' /\ struct s s' /\ o_objs o' = o_objs o /\ o_src_amps o' = (o_src_amps o ++ [amplitude s])%list /\ (r = Ok tt -> o_current o' = false) /\
  (o_max_shift o = None -> r = Ok tt /\ s' = s).
Proof.
  unfold set_source_amplitude. cbn [o_max_shift push_amp]. fold (amplitude s). intro H.
  destruct (o_max_shift o) as [lim|].
  2: { injection H as <- <- <-. split; [repeat split|]. split; [apply struct_refl|]. auto. }
  destruct (compute_index_shift e s) as [s1 [dn|x]] eqn:E; apply index_shift_same in E; apply struct_same in E.
  2: { injection H as <- <- <-. split; [repeat split|]. split; [exact E|]. repeat split; discriminate. }
  cbv zeta in H. destruct (Req_EM_T _ _). { injection H as <- <- <-. split; [repeat split|]. split; [exact E|]. repeat split; discriminate. }
  destruct (Rlt_dec _ _). { injection H as <- <- <-. split; [repeat split|]. split; [exact E|]. repeat split; discriminate. }
  injection H as <- <- <-. split; [repeat split|]. split; [|repeat split; discriminate || auto].
  eapply struct_trans; [exact E|]. split; [eexists; repeat split|auto].
Qed.

(* ------------------------------------------------------------------ *)
(** ** Fresh values of the objective *)

(** The objective J(args) of a simulation: solve for its fields (the nonlinear ones
    only if some argument is nonlinear), take the fields the arguments name, call J.
    No cache is involved. *)
Definition objective_value (e : env) (J : pyfun) (args : list obj_arg) (s : sim) : res R :=
  match solve_fields e false false s with
  | (_, Raise x) => Raise x
  | (s1, Ok _) =>
      rbind (if existsb oa_nl args
             then match solve_fields_nl_default e s1 with (s2, Ok _) => Ok s2 | (_, Raise x) => Raise x end
             else Ok s1)
        (fun s2 => rbind (arg_fields s2 args) (pf_call J))
  end.
Lemma existsb_forallb {T} (f : T -> bool) l : forallb (fun a => negb (f a)) l = negb (existsb f l).
Proof. induction l as [|a l IH]; cbn; [reflexivity|]. rewrite IH. destruct (f a); reflexivity. Qed.
Lemma compute_J_fresh e o s : o_current o = false ->
  snd (compute_J e (o, s)) = objective_value e (ob_J (o_objective o)) (ob_args (o_objective o)) s.
Proof.
  intro Hc. unfold compute_J, bind, getS, lift, solve_arg_fields, needs_solve, objective_value. rewrite Hc. cbn [negb].
  destruct (solve_fields e false false s) as [s1 [F|x]]; [|reflexivity].
  unfold is_linear. rewrite existsb_forallb. destruct (existsb oa_nl (ob_args (o_objective o))); cbn [negb rbind].
  - destruct (solve_fields_nl_default e s1) as [s2 [F2|x]]; [|reflexivity]. cbn [rbind].
    destruct (arg_fields s2 _); reflexivity.
  - destruct (arg_fields s1 _); reflexivity.
Qed.
Lemma compute_J_flag e o s o' s' v : o_current o = false -> compute_J e (o, s) = ((o', s'), Ok v) -> o_current o' = true.
Proof.
  intros Hc H. unfold compute_J, bind, getS, lift, solve_arg_fields, needs_solve in H. rewrite Hc in H. cbn [negb] in H.
  destruct (solve_fields e false false s) as [s1 [F|x]]; [|discriminate].
  destruct (is_linear _).
  - destruct (arg_fields s1 _); [|discriminate]. injection H as <- <- _. reflexivity.
  - destruct (solve_fields_nl_default e s1) as [s2 [F2|x]]; [|discriminate]. destruct (arg_fields s2 _); [|discriminate].
    injection H as <- <- _. reflexivity.
Qed.

(** simulations that differ only in the nonlinear work arrays *)
Definition work_eq (s s' : sim) : Prop := same_problem s s' /\ s_fields s' = s_fields s /\ s_fields_nl s' = s_fields_nl s.
Lemma compute_nl_work s s' F : work_eq s s' -> compute_nl F s' = compute_nl F s.
Proof.
  destruct s, s'. unfold work_eq, same_problem. cbn. intros ((E1 & E2 & E3 & E4 & E5 & E6 & E7 & E8 & E9 & E10 & E11 & E12 & E13 & E14 & E15 & E16 & E17) & E18 & E19).
  subst. reflexivity.
Qed.
Lemma derived_same s s' et av X : same_problem s s' -> derived_fields s' et av X = derived_fields s et av X.
Proof.
  destruct s, s'. unfold same_problem. cbn. intros (E1 & E2 & E3 & E4 & E5 & E6 & E7 & E8 & E9 & E10 & E11 & E12 & E13 & E14 & E15 & E16 & E17).
  subst. reflexivity.
Qed.
Lemma lin_solve_work e av s s' : work_eq s s' ->
  snd (solve_fields e false av s') = snd (solve_fields e false av s) /\
  work_eq (fst (solve_fields e false av s)) (fst (solve_fields e false av s')).
Proof.
  intro HW. assert (HW' := HW). destruct HW' as (HS & HF & HN). destruct (same_rhs _ _ HS) as (ER & EM & ES & EP).
  assert (HS' := HS). destruct HS' as (_ & _ & _ & _ & _ & _ & _ & _ & _ & _ & EE & EA & _).
  unfold solve_fields. rewrite ES, EM, EA, ER. destruct (negb _); [split; [reflexivity|exact HW]|].
  destruct (solver_direct _ _ _ _ _) as [X|]; [|split; [reflexivity|exact HW]].
  rewrite (derived_same s s') by exact HS. unfold s_epsC. rewrite EE. destruct (derived_fields _ _ _ _) as [a b].
  split; [reflexivity|]. cbn [fst]. rewrite EP, HF. split; [|split; [reflexivity|exact HN]].
  unfold same_problem in *. cbn. tauto.
Qed.
Lemma nl_solve_work e s s' : work_eq s s' -> 
  snd (solve_fields_nl_default e s') = snd (solve_fields_nl_default e s) /\
  work_eq (fst (solve_fields_nl_default e s)) (fst (solve_fields_nl_default e s')).
Proof.
  intro HW. assert (HS := proj1 HW). destruct (same_rhs _ _ HS) as (_ & _ & _ & EP).
  assert (HB: born_solve e None (1 / 10 ^ 10) 20 false s' = born_solve e None (1 / 10 ^ 10) 20 false s \/
     exists x, snd (born_solve e None (1 / 10 ^ 10) 20 false s') = Raise x /\ snd (born_solve e None (1 / 10 ^ 10) 20 false s) = Raise x /\
       work_eq (fst (born_solve e None (1 / 10 ^ 10) 20 false s)) (fst (born_solve e None (1 / 10 ^ 10) 20 false s'))).
  { unfold born_solve. rewrite EP. unfold start_field. destruct HW as (HS1 & HF & HN). rewrite HF.
    destruct (s_fields s (pol_comp (s_pol s))) as [F|].
    - left. cbn [born_loop]. rewrite (compute_nl_work s s') by (split; auto). reflexivity.
    - destruct (lin_solve_work e false s s') as [L1 L2]; [split; auto|].
      destruct (solve_fields e false false s) as [s1 r1], (solve_fields e false false s') as [s1' r1']. cbn [fst snd] in L1, L2. subst r1'.
      destruct r1 as [[[a b] F]|x].
      + left. cbn [born_loop]. rewrite (compute_nl_work s1 s1') by exact L2. reflexivity.
      + right. exists x. split; [reflexivity|]. split; [reflexivity|]. exact L2. }
  unfold solve_fields_nl_default, solve_fields_nl. rewrite hybrid_unfold. destruct HB as [->|(x & H1 & H2 & H3)].
  - split; [reflexivity|]. match goal with |- work_eq ?x ?x => split; [apply same_refl|split; reflexivity] end.
  - destruct (born_solve e None _ 20 false s) as [s1 r1], (born_solve e None _ 20 false s') as [s1' r1']. cbn [fst snd] in *. subst r1 r1'.
    split; [reflexivity|exact H3].
Qed.
Lemma arg_fields_work s s' l : work_eq s s' -> arg_fields s' l = arg_fields s l.
Proof. intros (_ & HF & HN). induction l as [|a l IH]; cbn [arg_fields]; [reflexivity|]. rewrite HF, HN, IH. reflexivity. Qed.
(** a fresh value depends only on the problem and the stored field dictionaries *)
Lemma objective_value_work e J args s s' : work_eq s s' -> objective_value e J args s' = objective_value e J args s.
Proof.
  intro HW. unfold objective_value. destruct (lin_solve_work e false s s' HW) as [L1 L2].
  destruct (solve_fields e false false s) as [s1 r1], (solve_fields e false false s') as [s1' r1']. cbn [fst snd] in L1, L2. subst r1'.
  destruct r1 as [F|x]; [|reflexivity]. destruct (existsb oa_nl args).
  - destruct (nl_solve_work e s1 s1' L2) as [N1 N2].
    destruct (solve_fields_nl_default e s1) as [s2 r2], (solve_fields_nl_default e s1') as [s2' r2']. cbn [fst snd] in N1, N2. subst r2'.
    destruct r2; [|reflexivity]. cbn [rbind]. rewrite (arg_fields_work s2 s2') by exact N2. reflexivity.
  - cbn [rbind]. rewrite (arg_fields_work s1 s1') by exact L2. reflexivity.
Qed.
(** the value of the objective depends on the problem only: not on fields stored by earlier
    solves, nor on the work arrays of the nonlinear solvers *)
Lemma objective_value_problem e J args s s' : same_problem s s' ->
  (forall c, ~ of_pol (s_pol s) c -> s_fields s' c = s_fields s c /\ s_fields_nl s' c = s_fields_nl s c) ->
  objective_value e J args s' = objective_value e J args s.
Proof.
  intros HS HO.
  transitivity (objective_value e J args (upd_fields (s_fields s) (upd_fields_nl (s_fields_nl s) s'))).
  2: { apply objective_value_work. split; [|split; reflexivity]. unfold same_problem in *. cbn. tauto. }
  destruct (same_rhs _ _ HS) as (_ & _ & _ & EP).
  transitivity (objective_value e J args (upd_fields (s_fields s) s')).
  - (* the stored linear fields are overwritten *)
    unfold objective_value.
    assert (HL: solve_fields e false false (upd_fields (s_fields s) s') =
       (match snd (solve_fields e false false s') with Ok _ => fst (solve_fields e false false s') | Raise _ => upd_fields (s_fields s) s' end, snd (solve_fields e false false s'))).
    { unfold solve_fields. change (s_M (upd_fields (s_fields s) s')) with (s_M s'). change (s_A (upd_fields (s_fields s) s')) with (s_A s').
      change (nd_size (s_src (upd_fields (s_fields s) s'))) with (nd_size (s_src s')). change (rhs (upd_fields (s_fields s) s')) with (rhs s').
      destruct (negb _); [reflexivity|]. destruct (solver_direct _ _ _ _ _) as [X|]; [|reflexivity].
      change (derived_fields (upd_fields (s_fields s) s')) with (derived_fields s'). change (s_epsC (upd_fields (s_fields s) s')) with (s_epsC s').
      destruct (derived_fields s' _ _ _) as [a c]. cbn [fst snd]. f_equal. change (s_pol (upd_fields (s_fields s) s')) with (s_pol s').
      change (s_fields (upd_fields (s_fields s) s')) with (s_fields s).
      rewrite (store3_off (s_pol s') (s_fields s) (s_fields s')); [reflexivity|]. intros c0 Hc. rewrite EP in Hc. symmetry. apply HO, Hc. }
    rewrite HL. destruct (solve_fields e false false s') as [s1 [F|x]]; reflexivity.
  - (* the stored nonlinear fields are overwritten when they are used *)
    set (s0 := upd_fields (s_fields s) s').
    change (upd_fields (s_fields s) (upd_fields_nl (s_fields_nl s) s')) with (upd_fields_nl (s_fields_nl s) s0).
    assert (E0: s_fields_nl s0 = s_fields_nl s') by reflexivity. assert (EP0: s_pol s0 = s_pol s) by exact EP. clearbody s0.
    unfold objective_value. rewrite (solve_fields_U (s_fields_nl s) e false false s0).
    destruct (solve_fields e false false s0) as [s1 [F|x]] eqn:ES; cbn [fst snd]; [|reflexivity].
    apply lin_solve_same in ES as [ES EN]. destruct (same_rhs _ _ ES) as (_ & _ & _ & EP1).
    destruct (existsb oa_nl args) eqn:EX.
    + unfold solve_fields_nl_default, solve_fields_nl. rewrite (hybrid_U (s_fields_nl s)).
      destruct (run_solver_nl e false None "hybrid" (1 / 10 ^ 10) 50 s1) as [s2 [[G conv]|x]] eqn:E2; cbn [fst snd]; [|reflexivity].
      assert (EP2 := hybrid_pol _ _ _ _ E2).
      assert (EN2: s_fields_nl s2 = s_fields_nl s').
      { rewrite (hybrid_fields_nl _ _ _ _ E2), EN. exact E0. }
      cbn [rbind]. change (s_pol (upd_fields_nl (s_fields_nl s) s2)) with (s_pol s2).
      change (s_fields_nl (upd_fields_nl (s_fields_nl s) s2)) with (s_fields_nl s). rewrite EN2.
      rewrite (store3_off (s_pol s2) (s_fields_nl s) (s_fields_nl s')); [reflexivity|].
      intros c Hc. symmetry. apply HO. rewrite EP2, EP1, EP0 in Hc. exact Hc.
    + cbn [rbind].
      assert (HA: forall l, existsb oa_nl l = false -> arg_fields s1 l = arg_fields (upd_fields_nl (s_fields_nl s) s1) l).
      { induction l as [|a l IH]; intro Hl; [reflexivity|]. cbn in Hl. apply orb_false_iff in Hl as [Ha Hl]. cbn [arg_fields]. rewrite Ha, IH by exact Hl. reflexivity. }
      rewrite (HA args EX). reflexivity.
Qed.
Lemma objective_value_tidy e J args s s' : same_problem s s' -> tidy s -> tidy s' -> objective_value e J args s' = objective_value e J args s.
Proof.
  intros HS HT HT'. apply objective_value_problem; [exact HS|]. intros c Hc. destruct (HT c Hc) as [-> ->].
  assert (EP: s_pol s' = s_pol s) by apply HS. rewrite <- EP in Hc. destruct (HT' c Hc) as [-> ->]. auto.
Qed.
