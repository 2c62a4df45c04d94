(** The gradient table: which objective arguments have a working gradient (C40). *)
From Coq Require Import Reals Lra Lia List ZArith Arith Bool String.
From Coquelicot Require Import Coquelicot.
From Verif Require Import Base Linear MCore MSim Spec PCore PSim PEx PropsCore PropsNl PropsIter MFilter PFilter PTanh PropsFilter MOpt PDiff PGrad PExOpt PropsGrad PropsGradNl PropsGradHz.
Import ListNotations.
Local Open Scope nat_scope.

(** after a successful nonlinear solve the nonlinear matrix and the nonlinear main field exist *)
Lemma solve_nl_leaves e s s' F : solve_fields_nl_default e s = (s', Ok F) ->
  (exists An, s_Anl s' = Some (s_M s', An)) /\ exists En, s_fields_nl s' (pol_comp (s_pol s')) = Some En.
Proof.
  unfold solve_fields_nl_default, solve_fields_nl. rewrite hybrid_unfold. intro H.
  destruct (born_solve e None (1 / 10 ^ 10) 20 false s) as [s1 [[F1 conv]|]] eqn:EB; [|discriminate].
  destruct F1 as [[a b] X]. apply born_solve_spec in EB as (s0 & F0 & Fp & l0 & c & E0 & HS & Ec & _ & -> & ES & _).
  destruct (last_conv conv) as [c1|]; [|discriminate].
  destruct (xgt c1 (1 / 10 ^ 10)).
  - unfold newton_solve in H. change (s_pol (compute_nl Fp s0)) with (s_pol s0) in H.
    clear E0. destruct (s_pol s0); [|discriminate].
    destruct (start_field _ _ _ _) as [s3 [E3|]]; [|discriminate].
    destruct (newton_loop _ _ _ _ _) as [s4 [[E4 l4]|]]; [|discriminate].
    destruct (solve_fields e true false (compute_nl E4 s4)) as [s5 [[[a5 b5] X5]|]] eqn:E5; [|discriminate].
    apply solve_fields_nl_state in E5. subst s5. injection H as <- <-.
    split; [eexists; reflexivity|].
    eexists. apply (store3_pol (s_pol (compute_nl E4 s4)) (s_fields_nl (compute_nl E4 s4)) (a5, b5, X5)).
  - injection H as <- <-. split; [eexists; reflexivity|]. eexists. apply (store3_pol (s_pol (compute_nl Fp s0)) (s_fields_nl (compute_nl Fp s0)) (a, b, X)).
Qed.

(** what the gradient functions need of the simulation *)
Definition grad_ready (args : list obj_arg) (s : sim) : Prop :=
  (exists rho, s_rho s = Val rho) /\ (exists E, s_fields s (pol_comp (s_pol s)) = Some E) /\
  (existsb oa_nl args = true -> (exists An, s_Anl s = Some (s_M s, An)) /\ exists E, s_fields_nl s (pol_comp (s_pol s)) = Some E) /\
  (List.Exists (fun a => oa_nl a = true /\ oa_comp a = Ez) args -> exists E, s_fields_nl s Ez = Some E).
Lemma solve_args_ready e o s J args o1 s1 rho : o_current o = false -> o_objective o = set_J J args -> s_rho s = Val rho ->
  solve_arg_fields e (o, s) = ((o1, s1), Ok tt) ->
  o_objective o1 = set_J J args /\ List.length (stored_args o1) = List.length args /\ grad_ready args s1.
Proof.
  intros Hc Ho Hr H. unfold solve_arg_fields, needs_solve in H. rewrite Hc in H. cbn [negb] in H.
  destruct (Nat.eq_dec (nd_size (s_src s)) (s_M s)) as [Hs|Hs].
  2: { unfold solve_fields in H. destruct (Nat.eqb_spec (nd_size (s_src s)) (s_M s)); [contradiction|]. discriminate H. }
  destruct (solve_fields_lin e false s Hs) as [X [HX HE]]. cbv zeta in HE. rewrite HE in H.
  set (sl := upd_fields _ s) in H.
  assert (Hsl: s_fields sl (pol_comp (s_pol s)) = Some X) by (unfold sl; cbn [upd_fields s_fields]; apply store3_pol).
  unfold is_linear in H. rewrite Ho in H. cbn [set_J ob_args] in H.
  destruct (forallb (fun a => negb (oa_nl a)) args) eqn:EL.
  - destruct (arg_fields sl args) as [l|] eqn:EA; [|discriminate]. injection H as <- <-.
    destruct (arg_fields_spec _ _ _ EA) as [L1 L2].
    split; [exact Ho|]. split; [exact L1|]. rewrite forallb_forall in EL.
    split; [exists rho; exact Hr|]. split; [exists X; exact Hsl|]. split.
    + intro HX1. apply existsb_exists in HX1 as (a & Ha & Hn). specialize (EL a Ha). rewrite Hn in EL. discriminate.
    + intro HX1. apply Exists_exists in HX1 as (a & Ha & Hn & _). specialize (EL a Ha). rewrite Hn in EL. discriminate.
  - destruct (solve_fields_nl_default e sl) as [s2 [F|x]] eqn:EN; [|discriminate].
    destruct (arg_fields s2 args) as [l|] eqn:EA; [|discriminate]. injection H as <- <-.
    destruct (arg_fields_spec _ _ _ EA) as [L1 L2].
    split; [exact Ho|]. split; [exact L1|].
    destruct (solve_nl_leaves e sl s2 F EN) as [K1 K2].
    apply solve_nl_step_strict in EN; [|left; discriminate]. destruct EN as [E1 E2].
    destruct E1 as (_ & _ & _ & Ep & _ & _ & _ & _ & _ & _ & _ & _ & _ & _ & _ & Er & _).
    split; [exists rho; rewrite Er; exact Hr|]. split; [|split].
    + rewrite Ep. change (s_pol sl) with (s_pol s) in *. destruct E2 as [E2|[E2 _]]; [exists X; rewrite E2; exact Hsl|].
      exfalso. change (s_pol sl) with (s_pol s) in *. rewrite Hsl in E2. discriminate.
    + intros _. auto.
    + intro HX1. apply Exists_exists in HX1 as (a & Ha & Hn & Hz). destruct (In_nth _ _ (mkArg Ez false grad_linear_Ez) Ha) as (q & Hq & Eq).
      specialize (L2 q Hq). cbv zeta in L2. rewrite Eq, Hn, Hz in L2. eexists; exact L2.
Qed.
(** one gradient function *)
Lemma run_grad_table e o dJ a s args g : grad_ready args s -> In a args -> oa_gradient a = GRADIENT_MAP (oa_comp a) (oa_nl a) ->
  dJ (stored_args o) = Ok g ->
  let F := if oa_nl a then s_fields_nl s (pol_comp (s_pol s)) else s_fields s (pol_comp (s_pol s)) in
  if andb (oa_nl a) (negb (comp_eqb (oa_comp a) Ez))
  then run_grad e (oa_gradient a) o dJ F (stored_args o) s
         = (s, Raise (match oa_comp a with Hx | Hy => NameError | _ => NotImplementedError end))
  else exists s1 gr, run_grad e (oa_gradient a) o dJ F (stored_args o) s = (s1, Ok gr) /\ grad_ready args s1.
Proof.
  intros (( rho & Hr) & (E & HE) & H3 & H4) Ha Hg Hd F. rewrite Hg.
  assert (HR: grad_ready args s) by (split; [eexists; exact Hr|split; [eexists; exact HE|auto]]).
  destruct (oa_nl a) eqn:En.
  - assert (H3': existsb oa_nl args = true) by (apply existsb_exists; exists a; auto).
    destruct (H3 H3') as ((An & HA) & (Enl & HEn)). unfold F. rewrite HEn.
    destruct (oa_comp a) eqn:Ec; cbn [andb negb comp_eqb GRADIENT_MAP run_grad]; try reflexivity; try (rewrite Hd; reflexivity).
    destruct H4 as [E4 H4]; [apply Exists_exists; exists a; auto|].
    unfold g_kerr_Ez, adjoint_kerr_Ez. rewrite Hd, HA, Nat.eqb_refl, H4. cbn [negb].
    destruct (solver_direct_default_ok e (2 * s_M s) (mT (kerr_Cfull (s_M s) (kerr_C11 s An E4) (kerr_C12 s E4))) (stack_conj (s_M s) (vneg g))) as [aj ->].
    assert (Hr1: get_rho (compute_nl Enl s) = Ok rho) by (unfold get_rho; change (s_rho (compute_nl Enl s)) with (s_rho s); rewrite Hr; reflexivity).
    rewrite Hr1. cbn [rbind]. do 2 eexists. split; [reflexivity|].
    split; [exists rho; exact Hr|]. split; [exists E; exact HE|]. split.
    { intros _. split; [eexists; reflexivity|exists Enl; exact HEn]. } intros _. exists E4. exact H4.
  - change F with (s_fields s (pol_comp (s_pol s))). rewrite HE. cbn [andb].
    assert (Hr1: get_rho s = Ok rho) by (unfold get_rho; rewrite Hr; reflexivity).
    assert (HS: forall b, exists aj, solver_direct e (s_M s) (mT (s_A s)) b (DEFAULT_SOLVER e) = Ok aj) by (intro; apply solver_direct_default_ok).
    assert (HF: forall b, exists gr, finish_linear_Ez e o s (Some E) b = Ok gr).
    { intro b. unfold finish_linear_Ez, adjoint_linear_Ez. destruct (HS b) as [aj ->]. cbn [rbind]. rewrite Hr1. cbn [rbind]. eexists; reflexivity. }
    assert (HZ: forall k, exists gr, g_linear_Hz k e o s dJ (Some E) (stored_args o) = Ok gr).
    { intro k. unfold g_linear_Hz. cbv zeta. rewrite Hd. cbn [rbind]. unfold adjoint_linear_Hz.
      match goal with |- context [solver_direct _ _ _ ?b _] => destruct (HS b) as [aj ->] end.
      cbn [rbind]. rewrite Hr1. cbn [rbind]. eexists; reflexivity. }
    destruct (oa_comp a); cbn [GRADIENT_MAP run_grad];
      (match goal with |- context [g_linear_Hz ?k] => destruct (HZ k) as [gr ->]; exists s, gr; auto | _ => idtac end);
      unfold g_linear_Ez, g_linear_Hxy; rewrite Hd; cbn [rbind];
      match goal with |- context [finish_linear_Ez _ _ _ _ ?b] => destruct (HF b) as [gr ->]; exists s, gr; auto end.
Qed.
(** no gradient: a nonlinear argument of a component other than Ez *)
Definition no_grad (a : obj_arg) : bool := andb (oa_nl a) (negb (comp_eqb (oa_comp a) Ez)).
Definition table_exn (a : obj_arg) : exn := match oa_comp a with Hx | Hy => NameError | _ => NotImplementedError end.
Lemma grad_loop_table e o J all : List.length (stored_args o) = pf_arity J ->
  forall l i acc s, (forall a, In a l -> In a all) ->
  (forall a, In a l -> oa_gradient a = GRADIENT_MAP (oa_comp a) (oa_nl a)) -> grad_ready all s ->
  let r := snd (grad_loop e o (List.combine (List.combine (List.map oa_gradient l) (List.map (fun i => pf_dcall J i) (List.seq i (List.length l)))) l) acc s) in
  match List.find no_grad l with
  | None => exists g, r = Ok g
  | Some a => r = Raise (table_exn a)
  end.
Proof.
  intro HL. induction l as [|a l IH]; intros i acc s Hin Hg HR.
  - cbn. eexists; reflexivity.
  - cbn [List.map List.length List.seq List.combine grad_loop List.find].
    assert (HJ: pf_dcall J i (stored_args o) = Ok (pf_grad J i (stored_args o))) by (unfold pf_dcall; rewrite HL, Nat.eqb_refl; reflexivity).
    assert (HT := run_grad_table e o (pf_dcall J i) a s all _ HR (Hin a (or_introl eq_refl)) (Hg a (or_introl eq_refl)) HJ).
    cbv zeta in HT. fold (no_grad a) in HT. destruct (no_grad a).
    + cbv zeta. rewrite HT. reflexivity.
    + destruct HT as (s1 & gr & HT & HR1). cbv zeta. rewrite HT. apply IH; [intros; apply Hin; right; assumption|intros; apply Hg; right; assumption|exact HR1].
Qed.

(** Whenever the objective itself can be evaluated, compute_dJ succeeds exactly when no
    argument is a nonlinear component other than Ez. *)
Definition has_gradient (c : string) (nl : bool) : Prop := nl = false \/ c = "Ez"%string.
Lemma gradient_table e o s rho J args ob st1 v :
  Objective J args = Ok ob -> o_objective o = ob -> o_current o = false -> s_rho s = Val rho ->
  (forall a, In a args -> exists c nl, new_obj_arg c nl = Ok a) ->
  compute_J e (o, s) = (st1, Ok v) ->
  match List.find no_grad args with
  | None => exists g, snd (compute_dJ e (o, s)) = Ok g
  | Some a => snd (compute_dJ e (o, s)) = Raise (table_exn a)
  end.
Proof.
  intros Hob Ho Hc Hr Ha HJ. destruct (Objective_ok _ _ _ Hob) as [-> HL].
  unfold compute_J, bind in HJ. unfold compute_dJ. destruct (solve_arg_fields e (o, s)) as [[o1 s1] [[]|x]] eqn:EF; [|discriminate].
  destruct (solve_args_ready e o s J args o1 s1 rho Hc Ho Hr EF) as (K1 & K2 & K3).
  rewrite K1. cbn [set_J ob_grads ob_dJ ob_args].
  assert (HT := grad_loop_table e o1 J args (eq_trans K2 HL) args 0 (fun _ => 0%R) s1 (fun a H => H)).
  rewrite HL in HT.
  destruct (grad_loop _ _ _ _ _) as [s2 r] eqn:EG. cbv zeta in HT. cbn [snd] in HT. cbn [snd].
  apply HT; [|exact K3]. intros a Hin. destruct (Ha a Hin) as (c & nl & Hn). unfold new_obj_arg in Hn.
  destruct (comp_of_string c); [|discriminate]. injection Hn as <-. reflexivity.
Qed.
Lemma no_grad_spec c nl a : new_obj_arg c nl = Ok a -> (no_grad a = false <-> has_gradient c nl).
Proof.
  unfold new_obj_arg, comp_of_string, has_gradient. intro H.
  repeat (match type of H with context [if String.eqb c ?x then _ else _] => destruct (String.eqb_spec c x) as [->|] end);
    try discriminate; injection H as <-; unfold no_grad; cbn [oa_nl oa_comp comp_eqb negb]; destruct nl; cbn [andb];
    split; intro H; auto; try discriminate; destruct H; discriminate.
Qed.
Theorem C40_gradient_defined_iff :
  forall e o s rho J args ob st1 v,
  Objective J args = Ok ob -> o_objective o = ob -> o_current o = false -> s_rho s = Val rho ->
  (forall a, In a args -> exists c nl, new_obj_arg c nl = Ok a) ->
  compute_J e (o, s) = (st1, Ok v) ->
  ((exists st2 g, compute_dJ e (o, s) = (st2, Ok g)) <->
   (forall a, In a args -> exists c nl, new_obj_arg c nl = Ok a /\ has_gradient c nl)).
Proof.
  intros e o s rho J args ob st1 v Hob Ho Hc Hr Ha HJ. assert (HT := gradient_table e o s rho J args ob st1 v Hob Ho Hc Hr Ha HJ).
  destruct (compute_dJ e (o, s)) as [st2 r]. cbn [snd] in HT. split.
  - intros (st3 & g & HE) a Hin. destruct (List.find no_grad args) eqn:EF.
    + injection HE as _ HE. rewrite HT in HE. discriminate.
    + destruct (Ha a Hin) as (c & nl & Hn). exists c, nl. split; [exact Hn|]. apply (no_grad_spec c nl a Hn).
      apply (List.find_none _ _ EF a Hin).
  - intro HA. destruct (List.find no_grad args) eqn:EF.
    + exfalso. apply List.find_some in EF as [Hin HN]. destruct (HA _ Hin) as (c & nl & Hn & HG). apply (no_grad_spec c nl _ Hn) in HG. congruence.
    + destruct HT as [g ->]. eexists _, g. reflexivity.
Qed.
(** which exception the missing gradients raise *)
Theorem C40_missing_gradients_raise :
  forall e o s rho J c a ob st1 v,
  new_obj_arg c true = Ok a -> ~ has_gradient c true ->
  Objective J [a] = Ok ob -> o_objective o = ob -> o_current o = false -> s_rho s = Val rho ->
  compute_J e (o, s) = (st1, Ok v) ->
  snd (compute_dJ e (o, s)) = Raise (if orb (String.eqb c "Hx") (String.eqb c "Hy") then NameError else NotImplementedError).
Proof.
  intros e o s rho J c a ob st1 v Hn HG Hob Ho Hc Hr HJ.
  assert (HT := gradient_table e o s rho J [a] ob st1 v Hob Ho Hc Hr).
  assert (HN: no_grad a = true). { destruct (no_grad a) eqn:E; [reflexivity|]. apply (no_grad_spec c true a Hn) in E. contradiction. }
  cbn [List.find] in HT. rewrite HN in HT. rewrite HT; [|intros b [<-|[]]; eauto|exact HJ].
  unfold new_obj_arg, comp_of_string in Hn. unfold table_exn.
  repeat (match type of Hn with context [if String.eqb c ?x then _ else _] => destruct (String.eqb_spec c x) as [->|] end);
    try discriminate; injection Hn as <-; try reflexivity.
Qed.
(** the property as stated, and its refutation *)
Definition C40_property : Prop :=
  forall e o s rho J args ob st1 v, solver_exact e ->
  Objective J args = Ok ob -> o_objective o = ob -> o_current o = false -> s_rho s = Val rho ->
  (forall a, In a args -> exists c nl, new_obj_arg c nl = Ok a) ->
  compute_J e (o, s) = (st1, Ok v) -> exists st2 g, compute_dJ e (o, s) = (st2, Ok g).

(** concrete: the 5 x 4 nonlinear example of C37; every choice of Ez-polarization arguments can be evaluated *)
Lemma ex_J_evaluates args : (forall a, In a args -> oa_comp a = Ez \/ oa_comp a = Hx \/ oa_comp a = Hy) -> existsb oa_nl args = true ->
  exists s0 o st1 v, fam_sim "Ez" 5 4 1 1 (fun _ => 1%R) = Ok s0 /\
  o_objective o = set_J (intensity 20 (List.length args)) args /\ o_current o = false /\ s_rho (ex_J_nl s0) = Val (fun _ => 0%R) /\
  compute_J ex_env (o, ex_J_nl s0) = (st1, Ok v).
Proof.
  intros HA HN.
  destruct (fam_sim_ok "Ez" 5 4 1 1 (fun _ => 1%R) (or_introl eq_refl)) as [s0 H0].
  destruct (ex_J_nl_facts s0 H0) as (EP & HC & EM & ES & EO & EL & EE & ED & Eeps & EA & ER).
  destruct (ex_J_solve ex_env s0 (ex_J_nl s0) ex_env_exact H0 eq_refl) as (s2 & F & HS & En & HE1 & HE2 & HE3 & HE4 & HE5).
  set (o := mkOpt (set_J (intensity 20 (List.length args)) args) ex_design rId (1 / 2) 10 5 "linear" "hybrid" None [] [] false None).
  assert (HL: forall c, c = Ez \/ c = Hx \/ c = Hy -> exists v, s_fields s2 c = Some v).
  { intros c Hc. rewrite HE4. unfold solved. rewrite EP. destruct Hc as [-> | [-> | ->]]; eexists; reflexivity. }
  assert (HF: forall c, c = Ez \/ c = Hx \/ c = Hy -> exists v, s_fields_nl s2 c = Some v).
  { assert (HS' := HS). unfold solve_fields_nl_default, solve_fields_nl in HS'.
    apply solve_nl_step_strict in HS; [|left; discriminate]. destruct HS as [(_ & _ & _ & Ep & _) _].
    change (s_pol (solved ex_env (ex_J_nl s0))) with (s_pol (ex_J_nl s0)) in Ep. rewrite EP in Ep.
    destruct (run_solver_nl _ _ _ _ _ _ _) as [s3 [[[[a b] X] conv]|]]; [|discriminate]. injection HS' as <- _.
    cbn [s_pol upd_fields_nl] in Ep. cbn [s_fields_nl upd_fields_nl]. rewrite Ep.
    intros c Hc. destruct Hc as [-> | [-> | ->]]; eexists; reflexivity. }
  assert (HAF: forall l, (forall a, In a l -> In a args) -> exists Fs, arg_fields s2 l = Ok Fs /\ List.length Fs = List.length l).
  { induction l as [|a l IH]; intro Hl; [exists []; auto|]. destruct IH as (Fs & I1 & I2); [intros; apply Hl; right; assumption|].
    cbn [arg_fields]. rewrite I1. destruct (oa_nl a).
    - destruct (HF (oa_comp a) (HA a (Hl a (or_introl eq_refl)))) as [v ->]. exists (v :: Fs). cbn. auto.
    - destruct (HL (oa_comp a) (HA a (Hl a (or_introl eq_refl)))) as [v ->]. exists (v :: Fs). cbn. auto. }
  destruct (HAF args (fun a H => H)) as (Fs & F1 & F2).
  exists s0, o, (upd_arglist Fs o, s2), (pf_val (intensity 20 (List.length args)) Fs).
  split; [exact H0|]. split; [reflexivity|]. split; [reflexivity|]. split; [reflexivity|].
  unfold compute_J, bind, solve_arg_fields, needs_solve. cbn [o o_current negb].
  assert (Hs: nd_size (s_src (ex_J_nl s0)) = s_M (ex_J_nl s0)) by (rewrite EM; exact ES).
  destruct (solve_fields_lin ex_env false (ex_J_nl s0) Hs) as [X [HX HE]]. cbv zeta in HE. rewrite HE.
  assert (HXs: lin_solution ex_env (ex_J_nl s0) = X) by (unfold lin_solution; rewrite HX; reflexivity). rewrite <- HXs.
  change (upd_fields _ (ex_J_nl s0)) with (solved ex_env (ex_J_nl s0)).
  assert (HI: is_linear (o_objective o) = false).
  { unfold is_linear. cbn [o o_objective set_J ob_args]. apply not_true_is_false. intro HF1. rewrite forallb_forall in HF1.
    apply existsb_exists in HN as (a & Ha & Hn). specialize (HF1 a Ha). rewrite Hn in HF1. discriminate. }
  rewrite HI, HS. change (ob_args (o_objective o)) with args. rewrite F1. cbn [getS lift fst]. unfold lift, pf_call. cbn [fst o_objective o upd_arglist set_J ob_J stored_args o_arglist].
  change (pf_arity (intensity 20 (List.length args))) with (List.length args). rewrite F2, Nat.eqb_refl. reflexivity.
Qed.
Theorem C40_every_argument_has_gradient_refuted : ~ C40_property.
Proof.
  intro HP.
  destruct (ex_J_evaluates [mkArg Hx true grad_kerr_Hx]) as (s0 & o & st1 & v & H0 & Ho & Hc & Hr & HJ).
  { intros a [<-|[]]. auto. } { reflexivity. }
  assert (Hob: Objective (intensity 20 1) [mkArg Hx true grad_kerr_Hx] = Ok (o_objective o)) by (rewrite Ho; reflexivity).
  destruct (HP ex_env o (ex_J_nl s0) _ _ _ _ st1 v ex_env_exact Hob eq_refl Hc Hr) as (st2 & g & HE).
  - intros a [<-|[]]. exists "Hx"%string, true. reflexivity.
  - exact HJ.
  - assert (HG: ~ has_gradient "Hx" true) by (intros [H|H]; discriminate).
    assert (HN := C40_missing_gradients_raise ex_env o (ex_J_nl s0) _ _ "Hx" (mkArg Hx true grad_kerr_Hx) _ st1 v eq_refl HG Hob eq_refl Hc Hr HJ).
    rewrite HE in HN. discriminate HN.
Qed.
Example C40_met :
  exists s0 o st1 v args, fam_sim "Ez" 5 4 1 1 (fun _ => 1%R) = Ok s0 /\
  Forall2 (fun c a => new_obj_arg (fst c) (snd c) = Ok a) [("Ez", true); ("Hx", false); ("Hy", false)]%string args /\
  Objective (intensity 20 3) args = Ok (o_objective o) /\ o_current o = false /\ s_rho (ex_J_nl s0) = Val (fun _ => 0%R) /\
  compute_J ex_env (o, ex_J_nl s0) = (st1, Ok v).
Proof.
  destruct (ex_J_evaluates [mkArg Ez true grad_kerr_Ez; mkArg Hx false grad_linear_Hx; mkArg Hy false grad_linear_Hy]) as (s0 & o & st1 & v & H0 & Ho & Hc & Hr & HJ).
  { intros a Ha. cbn in Ha. intuition (subst; auto). } { reflexivity. }
  exists s0, o, st1, v. eexists. split; [exact H0|]. split; [repeat constructor|]. split; [rewrite Ho; reflexivity|]. auto.
Qed.
