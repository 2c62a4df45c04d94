(** Theorems about the LBFGS driver, ADAM moments, scans, objectives and options. *)
From Coq Require Import Reals Lra Lia List ZArith Arith Bool String FunctionalExtensionality.
From Coquelicot Require Import Coquelicot.
From Verif Require Import Base Linear MCore MSim Spec PCore PSim PEx PropsCore PropsNl PropsIter MFilter PFilter PTanh PropsFilter MOpt PDiff PGrad PExOpt PropsGrad PropsGradNl PropsGradHz PropsGradTab POpt PropsOpt PropsOpt2.
Import ListNotations.
Local Open Scope nat_scope.

(* ------------------------------------------------------------------ *)
(** * C47 *)
(** [s1] is [s] with the density [rho1] and possibly another source *)
Definition has_density (o : opt) (s s1 : sim) (rho1 : rvec) : Prop :=
  s_rho s1 = Val rho1 /\ same_problem (with_density o (upd_src (s_src s1) s) rho1) s1.
Lemma lb_serve_state e o s rho0 l : s_rho s = Val rho0 -> same_problem (with_density o s rho0) s -> tidy s ->
  forall o1 s1 r, lb_serve_all e l (o, s) = ((o1, s1), r) ->
  cfg o o1 /\ tidy s1 /\ exists rho1, (forall k, o_design o k <> 1%R -> rho1 k = rho0 k) /\ has_density o s s1 rho1.
Proof.
  intros Hr HS HT o1 s1 r H.
  set (P := fun o1 s1 => cfg o o1 /\ tidy s1 /\ exists rho1, (forall k, o_design o k <> 1%R -> rho1 k = rho0 k) /\ has_density o s s1 rho1).
  refine (proj2 (proj2 (lb_inv P _ e _)) l o s o1 s1 r H _).
  - intros o2 s2 o3 s3 C HSt (C2 & T2 & rho1 & D1 & R1 & S1). destruct (struct_facts _ _ HSt) as (F1 & _). destruct HSt as [[v HSt] HT3].
    split; [eapply cfg_trans; eassumption|]. split; [apply HT3, T2|]. exists rho1. split; [exact D1|]. split; [congruence|].
    change (with_density o (upd_src (s_src s3) s) rho1) with (upd_src (s_src s3) (with_density o s rho1)).
    change (with_density o (upd_src (s_src s2) s) rho1) with (upd_src (s_src s2) (with_density o s rho1)) in S1.
    generalize dependent (with_density o s rho1). intros X S1. unfold same_problem in *. cbn in *. intuition congruence.
  - intros o2 s2 rho2 x Hr2 (C2 & T2 & rho1 & D1 & R1 & S1). rewrite Hr2 in R1. injection R1 as <-.
    split; [exact C2|]. split; [apply tidy_set_eps|]. eexists. split; [|split; [reflexivity|]].
    + intros k Hk. destruct C2 as (_ & -> & _). unfold insert_design. destruct (Req_EM_T _ _); [contradiction|]. apply D1, Hk.
    + rewrite (with_density_cfg o o2) by exact C2. change (s_src (with_density o s2 _)) with (s_src s2).
      eapply same_trans; [apply same_sym, (with_density_twice o _ rho2)|]. apply with_density_same, S1.
  - split; [apply cfg_refl|]. split; [exact HT|]. exists rho0. split; [auto|]. split; [exact Hr|].
    replace (upd_src (s_src s) s) with s by (destruct s; reflexivity). exact HS.
Qed.
Lemma lb_serve_src e l : forall o s, o_max_shift o = None -> forall o1 s1 r, lb_serve_all e l (o, s) = ((o1, s1), r) -> s_src s1 = s_src s.
Proof.
  assert (HSR: forall y o s o' s' r, set_design_region y (o, s) = ((o', s'), r) -> s_src s' = s_src s /\ o_max_shift o' = o_max_shift o).
  { intros y o s o' s' r H. apply set_region_spec in H as [(_ & rho & _ & [H|H])|(_ & H)]; injection H as -> ->; auto. }
  assert (HJ: forall o s o' s' r, compute_J e (o, s) = ((o', s'), r) -> s_src s' = s_src s /\ o_max_shift o' = o_max_shift o).
  { intros o s o' s' r H. apply compute_J_frame in H as (C & [S _] & _). split; [apply S|apply C]. }
  assert (HD: forall o s o' s' r, compute_dJ e (o, s) = ((o', s'), r) -> s_src s' = s_src s /\ o_max_shift o' = o_max_shift o).
  { intros o s o' s' r H. apply compute_dJ_frame in H as (C & [S _] & _). split; [apply S|apply C]. }
  assert (H1: forall c o s, o_max_shift o = None -> forall o1 s1 r, lb_serve e c (o, s) = ((o1, s1), r) -> s_src s1 = s_src s /\ o_max_shift o1 = None).
  { intros [y|y|y] o s HN o1 s1 r HH; cbn [lb_serve] in HH; unfold bind, modS, getS, ret in HH.
    - destruct (set_design_region y (o, s)) as [[o3 s3] [[]|z]] eqn:E1; apply HSR in E1 as [A1 B1]; [|injection HH as <- <- <-; split; congruence].
      destruct (compute_J e (o3, s3)) as [[o4 s4] [J|z]] eqn:E2; apply HJ in E2 as [A2 B2]; injection HH as <- <- <-; split; congruence.
    - destruct (set_design_region y (o, s)) as [[o3 s3] [[]|z]] eqn:E1; apply HSR in E1 as [A1 B1]; [|injection HH as <- <- <-; split; congruence].
      destruct (compute_dJ e (o3, s3)) as [[o4 s4] [J|z]] eqn:E2; apply HD in E2 as [A2 B2]; injection HH as <- <- <-; split; congruence.
    - destruct (compute_J e (o, s)) as [[o3 s3] [J|z]] eqn:E1; apply HJ in E1 as [A1 B1]; [|injection HH as <- <- <-; split; congruence]. cbn [fst snd] in HH.
      destruct (set_design_region y (push_obj J o3, s3)) as [[o4 s4] [[]|z]] eqn:E2; apply HSR in E2 as [A2 B2]; cbn in B2; [|injection HH as <- <- <-; split; congruence].
      destruct (set_source_amplitude e (o4, s4)) as [[o5 s5] r5] eqn:E3. apply set_amp_frame in E3 as (C3 & _ & _ & _ & _ & L3).
      destruct L3 as [-> ->]; [congruence|]. injection HH as <- <- <-. split; [congruence|]. destruct C3 as (_ & _ & _ & _ & _ & _ & _ & _ & ->). congruence. }
  induction l as [|c l IH]; intros o s HN o1 s1 r HH; cbn [lb_serve_all] in HH; unfold bind, ret in HH; [injection HH as <- <- <-; reflexivity|].
  destruct (lb_serve e c (o, s)) as [[o3 s3] [q|z]] eqn:E1; apply (H1 c o s HN) in E1 as [A1 B1]; [|injection HH as <- <- <-; exact A1].
  destruct (lb_serve_all e l (o3, s3)) as [[o4 s4] [q2|z]] eqn:E2; apply (IH o3 s3 B1) in E2; injection HH as <- <- <-; congruence.
Qed.
(** The value the LBFGS driver obtains for x after any sequence of evaluations, gradients and
    callbacks: minus the objective of the starting structure with a density that is x up to a
    relative error of 1e-10 in the design region and the original density elsewhere.  The only
    other trace of the history is the source, which changes if max_ind_shift is given. *)
Theorem C47_lbfgs_value_partial :
  forall e calls x o s rho0 o1 s1 outs st2 v,
  s_rho s = Val rho0 -> same_problem (with_density o s rho0) s -> tidy s ->
  lb_serve_all e calls (o, s) = ((o1, s1), Ok outs) -> lb_serve e (CallF x) (o1, s1) = (st2, Ok (OutF v)) ->
  exists rho', (forall k, o_design o k <> 1%R -> rho' k = rho0 k) /\
    (region_error o s x rho' <= 1 / 10 ^ 10 * region_norm o s x)%R /\
    fresh_J e o (with_density o (upd_src (s_src s1) s) rho') = Ok (- v)%R /\
    (o_max_shift o = None -> s_src s1 = s_src s).
Proof.
  intros e calls x o s rho0 o1 s1 outs st2 v Hr HS HT H H2.
  assert (HSrc := fun HN => lb_serve_src e calls o s HN _ _ _ H).
  destruct (lb_serve_state e o s rho0 calls Hr HS HT _ _ _ H) as (C1 & T1 & rho1 & D1 & R1 & S1).
  cbn [lb_serve] in H2. unfold bind, ret in H2.
  destruct (C46_design_vector_is_stored x o1 s1 rho1 R1) as (o2 & s2 & rho' & E & R2 & B2 & O2 & K1 & K2). rewrite E in H2.
  assert (F2: o_current o2 = false).
  { apply set_region_spec in E as [(_ & rho & _ & [E|E])|((y & E) & _)]; [injection E as -> _; reflexivity..|discriminate]. }
  assert (C2: cfg o o2).
  { apply set_region_spec in E as [(_ & rho & _ & [E|E])|((y & E) & _)]; [injection E as -> _; exact C1..|discriminate]. }
  destruct (compute_J e (o2, s2)) as [[o3 s3] [J|y]] eqn:EJ; [|discriminate]. injection H2 as _ Hv.
  apply compute_J_fresh' in EJ; [|exact F2]. rewrite (fresh_cfg e o o2) in EJ by exact C2.
  assert (HMs: s_M s1 = s_M s). { destruct S1 as (_ & _ & _ & _ & _ & EX & EY & _). unfold s_M. rewrite EX, EY. reflexivity. }
  exists rho'. split; [|split; [|split; [|exact HSrc]]].
  - intros k Hk. rewrite O2; [apply D1, Hk|]. destruct C1 as (_ & -> & _). exact Hk.
  - unfold region_error, region_norm in *. destruct C1 as (_ & ED & _). rewrite ED in B2. rewrite <- HMs. exact B2.
  - rewrite <- Hv, Ropp_involutive, <- EJ.
    assert (HP: same_problem (with_density o (upd_src (s_src s1) s) rho') s2 /\ tidy s2).
    { destruct (Rle_dec (region_error o1 s1 x rho1) (1 / 10 ^ 10 * region_norm o1 s1 x)) as [L|L].
      - rewrite (K1 L) in *. rewrite R1 in R2. injection R2 as <-. auto.
      - destruct K2 as [_ ->]; [lra|]. split; [|apply tidy_set_eps]. rewrite (with_density_cfg o o1) by exact C1.
        eapply same_trans; [apply same_sym, (with_density_twice o _ rho1)|]. apply with_density_same, S1. }
    symmetry. apply objective_value_tidy; [apply HP|apply tidy_set_eps|apply HP].
Qed.
(** hence the value does not depend on the history up to the tolerance: two histories with the
    same x evaluate structures whose design vectors both agree with x *)
(** the property as stated: the value for x is that of the density with x inserted *)
Definition C47_property : Prop :=
  forall e calls x o s rho0 o1 s1 outs st2 v,
  s_rho s = Val rho0 -> same_problem (with_density o s rho0) s -> tidy s -> o_max_shift o = None ->
  lb_serve_all e calls (o, s) = ((o1, s1), Ok outs) -> lb_serve e (CallF x) (o1, s1) = (st2, Ok (OutF v)) ->
  fresh_J e o (with_density o s (insert_design (o_design o) x rho0)) = Ok (- v)%R.
Lemma with_density_self o s rho : same_problem (with_density o (with_density o s rho) rho) (with_density o s rho).
Proof. apply with_density_twice. Qed.
Definition dist_J (M : nat) (X1 : vec) : pyfun :=
  mkFun 1 (fun Fs => rsum M (fun k => Cnorm2 (List.nth 0 Fs vzero k - X1 k)%C)) (fun i Fs k => RtoC 0).
(** refuted: design vectors that differ by less than 1e-10 get the value of the earlier one *)
Theorem C47_value_of_vector_refuted : ~ C47_property.
Proof.
  intro HP. destruct (fam_sim_ok "Ez" 2 2 0 0 (fun _ => 1%R) (or_introl eq_refl)) as [s00 H0].
  set (d := (1 / 10 ^ 12)%R). assert (Hd: (0 < d < 1 / 100)%R) by (unfold d; lra).
  set (rho0 := fun k : nat => (1 / 2)%R). set (x := fun k : nat => (1 / 2 + d)%R).
  set (oJ := fun J => mkOpt (set_J J [Ez_lin]) (fun _ => 1%R) rId (1 / 2) 10 5 "linear" "hybrid" None [] [] false None).
  set (s := with_density (oJ (intensity 4 1)) (upd_src (mkNd 2 2 (fun _ => RtoC 1)) s00) rho0).
  set (X1 := lin_solution ex_env s). set (o := oJ (dist_J 4 X1)).
  set (s2 := with_density o s (insert_design (o_design o) x rho0)).
  assert (HRho: forall k, insert_design (o_design o) x rho0 k = (1 / 2 + d)%R).
  { intro k. unfold insert_design, o, oJ. cbn [o_design]. destruct (Req_EM_T 1 1); [reflexivity|lra]. }
  destruct (fam_facts 2 2 0 0 (fun _ => 1%R) s00 (oJ (intensity 4 1)) (fun _ => RtoC 1) rho0 H0 ltac:(lia) ltac:(lia)) as (F1 & F2 & F3 & F4 & F5 & F6 & F7 & F8).
  { intros k Hk. apply fam_eps_ge1; try (cbn; lra); [exact Hk|unfold rho0; lra]. }
  destruct (fam_facts 2 2 0 0 (fun _ => 1%R) s00 o (fun _ => RtoC 1) (insert_design (o_design o) x rho0) H0 ltac:(lia) ltac:(lia)) as (G1 & G2 & G3 & G4 & G5 & G6 & G7 & _).
  { intros k Hk. apply fam_eps_ge1; try (cbn; lra); [exact Hk|rewrite HRho; lra]. }
  fold s in F1, F2, F3, F4, F5, F6, F7, F8. change (2 * 2) with 4 in *.
  assert (HS2: same_problem (with_density o (upd_src (mkNd 2 2 (fun _ => RtoC 1)) s00) (insert_design (o_design o) x rho0)) s2) by repeat split.
  assert (EA2: s_A s2 = s_A (with_density o (upd_src (mkNd 2 2 (fun _ => RtoC 1)) s00) (insert_design (o_design o) x rho0))) by apply HS2.
  assert (HM2: s_M s2 = 4) by exact F7.
  assert (R1: lin_ready (dist_J 4 X1) [Ez_lin] o s).
  { split; [exact F1|]. split; [exact F3|]. split; [eexists; exact F5|]. split; [reflexivity|]. split; [|split; reflexivity].
    constructor; [|constructor]. split; [split; [reflexivity|left; reflexivity]|reflexivity]. }
  assert (R2: lin_ready (dist_J 4 X1) [Ez_lin] o s2).
  { split; [exact F1|]. split; [rewrite HM2; reflexivity|]. split; [eexists; reflexivity|]. split; [reflexivity|]. split; [|split; reflexivity].
    constructor; [|constructor]. split; [split; [reflexivity|left; reflexivity]|reflexivity]. }
  (* the driver evaluates x on the unchanged simulation *)
  assert (HL: (region_error o s x rho0 <= 1 / 10 ^ 10 * region_norm o s x)%R).
  { unfold region_error, region_norm. rewrite F7.
    assert (EL: design_pixels 4 (o_design o) = [0; 1; 2; 3]).
    { unfold design_pixels, o, oJ. cbn [o_design]. cbn. destruct (Req_EM_T 1 1); [reflexivity|lra]. }
    rewrite EL. unfold rnrm. cbn [List.length rsum]. unfold get_design_region. unfold x, rho0.
    replace (0 + (1 / 2 + d - 1 / 2) ^ 2 + (1 / 2 + d - 1 / 2) ^ 2 + (1 / 2 + d - 1 / 2) ^ 2 + (1 / 2 + d - 1 / 2) ^ 2)%R with ((2 * d) ^ 2)%R by ring.
    replace (0 + (1 / 2 + d) ^ 2 + (1 / 2 + d) ^ 2 + (1 / 2 + d) ^ 2 + (1 / 2 + d) ^ 2)%R with ((1 + 2 * d) ^ 2)%R by field.
    rewrite !sqrt_pow2 by lra. unfold d. lra. }
  assert (HV: exists st2, lb_serve ex_env (CallF x) (o, s) = (st2, Ok (OutF (- 0)%R))).
  { cbn [lb_serve]. unfold bind, ret. destruct (C46_design_vector_is_stored x o s rho0 F5) as (o2 & s3 & rho' & E & _ & _ & _ & K1 & _). rewrite E.
    rewrite (K1 HL) in *. assert (EO: o2 = o).
    { apply set_region_spec in E as [(_ & rho & _ & [E|E])|((y & E) & _)]; [apply (f_equal fst) in E; exact E..|discriminate]. }
    subst o2. rewrite (compute_J_lin ex_env o s (dist_J 4 X1) [Ez_lin] eq_refl eq_refl F1 F3 (proj1 (proj2 (proj2 (proj2 (proj2 R1))))) eq_refl).
    eexists. do 3 f_equal. change (List.map _ [Ez_lin]) with [lin_solution ex_env s]. cbn [dist_J pf_val List.nth]. fold X1.
    rewrite rsum_0; [ring|]. intros k Hk. unfold Cnorm2. replace (X1 k - X1 k)%C with (RtoC 0) by ring. cbn. ring. }
  destruct HV as [st2 HV].
  assert (HB := HP ex_env [] x o s rho0 o s [] st2 (- 0)%R F5 ltac:(repeat split) ltac:(apply tidy_set_eps) eq_refl eq_refl HV).
  fold s2 in HB.
  destruct (C43_fresh_value_linear ex_env o s2 _ _ R2 ex_env_exact ltac:(rewrite HM2, EA2; rewrite G7 in G4; exact G4)) as (X2 & HX2 & HF).
  rewrite HF in HB. injection HB as HB. change (rsum 4 (fun k => Cnorm2 (X2 k - X1 k)%C) = - - 0)%R in HB.
  assert (HE: forall k, k < 4 -> X2 k = X1 k).
  { assert (HZ: all_zero 4 (fun k => (X2 k - X1 k)%C) = true). { unfold all_zero. rewrite HB. destruct (Req_EM_T _ _) as [|N]; [reflexivity|exfalso; apply N; ring]. }
    intros k Hk. assert (HZ' := proj1 (all_zero_spec 4 _) HZ k Hk). cbv beta in HZ'.
    replace (X2 k) with ((X2 k - X1 k) + X1 k)%C by ring. rewrite HZ'. ring. }
  assert (HX1: solves 4 (s_A s) X1 (rhs s)).
  { unfold X1, lin_solution. destruct (solver_direct_default_ok ex_env (s_M s) (s_A s) (rhs s)) as [Y0 HY0]. rewrite HY0.
    rewrite F7 in *. eapply solver_direct_correct; [exact ex_env_exact|exact F4|exact HY0]. }
  destruct (with_density_A o s (insert_design (o_design o) x rho0) F1 F2) as (_ & _ & HA). fold s2 in HA. rewrite F7 in HA.
  (* the difference of the two equations *)
  assert (HZ: forall k, k < 4 -> X1 k = RtoC 0).
  { intros k Hk. assert (E2 := HX2). rewrite HM2 in E2. specialize (E2 k Hk). change (rhs s2) with (rhs s) in E2.
    rewrite <- (HX1 k Hk) in E2. change (csum 4 (fun c => (s_A s2 k c * X2 c)%C)) with (mv 4 (s_A s2) X2 k) in E2.
    change (csum 4 (fun c => (s_A s k c * X1 c)%C)) with (mv 4 (s_A s) X1 k) in E2.
    rewrite (HA X2 k Hk) in E2. rewrite (mv_ext_v 4 (s_A s) X2 X1 k HE) in E2. rewrite (HE k Hk) in E2.
    assert (EK: (RtoC (kap s * (rho2eps 4 (insert_design (o_design o) x rho0) (o_eps_m o) (o_W o) (o_eta o) (o_beta o) k - nd_buf (s_eps s) k)) * X1 k)%C = RtoC 0).
    { match type of E2 with (?a + ?b)%C = _ => replace b with ((a + b) - a)%C by ring end. rewrite E2. ring. }
    rewrite (F6 k ltac:(rewrite F7; exact Hk)), F7 in EK. unfold rho2eps in EK. unfold o, oJ in EK. cbn [o_eps_m o_W o_eta o_beta] in EK.
    rewrite !rho2rhot_rId in EK by exact Hk. fold (oJ (dist_J 4 X1)) o in EK.
    destruct (C21_projection_endpoints_and_monotone (1 / 2) 10 ltac:(lra) ltac:(lra)) as (_ & _ & PM & _).
    assert (HL2 := PM (1 / 2)%R (1 / 2 + d)%R ltac:(lra)).
    destruct (Ceq_dec (X1 k) (RtoC 0)) as [|N]; [assumption|]. exfalso.
    apply Cmult_integral in EK as [EK|EK]; [|contradiction]. apply (f_equal Re) in EK. unfold Re, RtoC in EK. cbn [fst] in EK.
    rewrite HRho in EK. unfold rho0, rhob2eps in EK. assert (HK: (0 < kap s)%R).
    { destruct F8 as (P1 & P2 & _). unfold kap. assert (PE := EPSILON_0_pos). apply Rmult_lt_0_compat; [apply Rmult_lt_0_compat|]; try assumption. nra. }
    apply Rmult_integral in EK as [EK|EK]; lra. }
  assert (E0 := HX1 0 ltac:(lia)). rewrite csum_0 in E0 by (intros c Hc; rewrite HZ by exact Hc; ring).
  unfold rhs in E0.
  change (nd_buf (s_src s) 0) with (RtoC 1) in E0.
  assert (HO: (0 < s_omega s)%R) by apply F8. apply (f_equal Im) in E0. autorewrite with reim in E0. lra.
Qed.
Lemma lb_serve_all_ok e J args l : forall o s, lb_ready J args o s -> exists o' s' q, lb_serve_all e l (o, s) = ((o', s'), Ok q) /\ lb_ready J args o' s'.
Proof.
  induction l as [|c l IH]; intros o s HR; cbn [lb_serve_all]; unfold bind, ret; [eauto 6|].
  destruct (lb_serve_ok e J args c o s HR) as (o1 & s1 & q1 & -> & R1). destruct (IH o1 s1 R1) as (o2 & s2 & q2 & -> & R2). eauto 6.
Qed.
(** the hypotheses of the theorem are met by every sequence of calls on a 5x4 example *)
Example C47_met : exists o s rho0, s_rho s = Val rho0 /\ same_problem (with_density o s rho0) s /\ tidy s /\ o_max_shift o = None /\
  forall e calls x, exists o1 s1 outs st2 v,
  lb_serve_all e calls (o, s) = ((o1, s1), Ok outs) /\ lb_serve e (CallF x) (o1, s1) = (st2, Ok (OutF v)).
Proof.
  destruct run_example as (s0 & ob & o & H0 & HO & HOpt & HR & _). exists (upd_current false o), (ex_run_sim o s0). eexists. split; [reflexivity|].
  split; [repeat split|]. split; [apply tidy_set_eps|]. split; [unfold Optimization in HOpt; injection HOpt as <-; reflexivity|].
  intros e calls x. assert (HB: lb_ready (intensity 20 1) [Ez_lin] (upd_current false o) (ex_run_sim o s0)) by (split; [exact HR|split; [discriminate|left; reflexivity]]).
  destruct (lb_serve_all_ok e _ _ calls _ _ HB) as (o1 & s1 & q & E1 & R1). exists o1, s1, q.
  destruct (lb_set_ok _ _ x o1 s1 R1) as (o2 & s2 & E2 & R2 & _). destruct (lb_J_ok e _ _ o2 s2 R2) as (o3 & s3 & v & E3 & R3).
  exists (o3, s3), (- v)%R. split; [exact E1|]. cbn [lb_serve]. unfold bind, ret. rewrite E2, E3. reflexivity.
Qed.

(* ------------------------------------------------------------------ *)
(** * C48 *)
Definition C48_property : Prop :=
  forall e m n step b1 b2 o s, (forall r, s_rho s <> Val r) -> m = MGD \/ m = MADAM ->
  exists st', run e m n step b1 b2 (o, s) = (st', Ok tt).
(** without a density run raises before doing anything: AttributeError when the simulation never
    had one (every simulation made by the constructor), TypeError when it is None *)
Theorem C48_run_without_density_raises :
  (forall e m n step b1 b2 o s, (forall r, s_rho s <> Val r) -> exists x,
     run e m n step b1 b2 (o, s) = ((o, s), Raise x) /\ (x = AttributeError \/ x = TypeError)) /\
  (forall omega eps dl NPML p L0 s, Simulation omega eps dl NPML p L0 = Ok s ->
     forall e m n step b1 b2 o, run e m n step b1 b2 (o, s) = ((o, s), Raise AttributeError)).
Proof.
  split.
  - intros e m n step b1 b2 o s H. unfold run. cbn [snd]. destruct (s_rho s) as [| |r] eqn:E; [eauto..|]. exfalso. exact (H r eq_refl).
  - intros omega eps dl NPML p L0 s H e m n step b1 b2 o. unfold Simulation in H. destruct (check_inputs _ _ _ _); [|discriminate].
    injection H as <-. reflexivity.
Qed.
Theorem C48_run_without_density_refuted : ~ C48_property.
Proof.
  intro HP. destruct (fam_sim_ok "Ez" 2 2 0 0 (fun _ => 1%R) (or_introl eq_refl)) as [s H0].
  set (o := mkOpt (set_J (intensity 4 1) [Ez_lin]) (fun _ => 1%R) rId (1 / 2) 10 5 "linear" "hybrid" None [] [] false None).
  assert (HR := proj2 C48_run_without_density_raises _ _ _ _ _ _ _ H0 ex_env MGD 1 1%R 0%R 0%R o).
  destruct (HP ex_env MGD 1 1%R 0%R 0%R o s) as [st' H]; [|left; reflexivity|].
  - unfold fam_sim, Simulation in H0. destruct (check_inputs _ _ _ _); [|discriminate]. injection H0 as <-. intros r Hr. discriminate Hr.
  - rewrite HR in H. discriminate H.
Qed.

(* ------------------------------------------------------------------ *)
(** * C49 *)
(** weights of the bias-corrected average of the t+1 values seen up to iteration t: exponentially
    decreasing with the age *)
Definition adam_weight (b : R) (t i : nat) : R := ((1 - b) * b ^ (t - i) / (1 - b ^ (t + 1)))%R.
(** the average of the non-empty list of values [xs] (oldest first) *)
Definition adam_average (b : R) (xs : list R) : R :=
  rsum (List.length xs) (fun i => (adam_weight b (List.length xs - 1) i * List.nth i xs 0)%R).
Definition adam_direction (b1 b2 : R) (gs : list rvec) : rvec := fun k =>
  (adam_average b1 (List.map (fun g : rvec => g k) gs)
   / (sqrt (adam_average b2 (List.map (fun g : rvec => (g k) ^ 2) gs)) + 1 / 10 ^ 8))%R.
(** [adam_trace e b1 b2 step gs st n st']: starting in st with the gradients gs seen so far, n
    iterations lead to st', each moving the density along the direction above *)
Inductive adam_trace (e : env) (b1 b2 step : R) : list rvec -> opt * sim -> nat -> opt * sim -> Prop :=
| adam_done gs st : adam_trace e b1 b2 step gs st 0 st
| adam_next gs st g st1 st2 n st3 : eval_step e st = (st1, Ok g) ->
    update_rho (adam_direction b1 b2 (gs ++ [g])) step st1 = (st2, Ok tt) ->
    adam_trace e b1 b2 step (gs ++ [g]) st2 n st3 -> adam_trace e b1 b2 step gs st (S n) st3.
Lemma geometric b n : rsum (S n) (fun i => (1 - b) * b ^ (n - i))%R = (1 - b ^ (n + 1))%R.
Proof.
  induction n as [|n IH]; [cbn; ring|]. cbn [rsum]. cbn [rsum] in IH.
  rewrite (rsum_ext n _ (fun i => b * ((1 - b) * b ^ (n - i)))%R) by (intros i Hi; replace (S n - i) with (S (n - i)) by lia; cbn [pow]; ring).
  rewrite rsum_scal. replace (S n - n) with 1 by lia. rewrite Nat.sub_diag in *.
  match type of IH with (?a + _)%R = _ => replace a with (1 - b ^ (n + 1) - (1 - b) * b ^ 0)%R by lra end.
  replace (S n + 1) with (S (n + 1)) by lia. cbn [pow]. ring.
Qed.
Lemma pow_below_1 b n : (0 <= b < 1)%R -> (0 <= b ^ (n + 1) < 1)%R.
Proof.
  intro H. induction n as [|n IH]; [cbn; lra|]. replace (S n + 1) with (S (n + 1)) by lia. cbn [pow]. split; [apply Rmult_le_pos; lra|].
  apply Rle_lt_trans with (b * 1)%R; [apply Rmult_le_compat_l; lra|lra].
Qed.
(** the weights are those of a convex combination *)
Theorem C49_weights_convex : forall b t, (0 <= b < 1)%R ->
  (forall i, i <= t -> (0 <= adam_weight b t i <= 1)%R) /\ rsum (S t) (adam_weight b t) = 1%R.
Proof.
  intros b t Hb. assert (HD := pow_below_1 b t Hb).
  assert (HS: rsum (S t) (adam_weight b t) = 1%R).
  { unfold adam_weight. rewrite (rsum_ext (S t) _ (fun i => / (1 - b ^ (t + 1)) * ((1 - b) * b ^ (t - i)))%R) by (intros; unfold Rdiv; ring).
    rewrite rsum_scal, geometric. field. lra. }
  assert (HP: forall i, (0 <= adam_weight b t i)%R).
  { intro i. unfold adam_weight, Rdiv. apply Rmult_le_pos; [apply Rmult_le_pos; [lra|apply pow_le; lra]|left; apply Rinv_0_lt_compat; lra]. }
  split; [|exact HS]. intros i Hi. split; [apply HP|]. rewrite <- HS.
  assert (HB: forall n (f : nat -> R) i, i < n -> (forall j, 0 <= f j)%R -> (f i <= rsum n f)%R).
  { induction n as [|n IH]; intros f j Hj Hf; [lia|]. cbn [rsum]. destruct (Nat.eq_dec j n) as [->|N].
    - assert (0 <= rsum n f)%R by (clear - Hf; induction n; cbn [rsum]; [lra|specialize (Hf n); lra]). lra.
    - specialize (IH f j ltac:(lia) Hf). specialize (Hf n). lra. }
  apply HB; [lia|exact HP].
Qed.
Lemma adam_average_snoc b xs x : (0 <= b < 1)%R ->
  ((1 - b ^ (List.length xs + 1)) * adam_average b (xs ++ [x]) =
   b * ((1 - b ^ List.length xs) * adam_average b xs) + (1 - b) * x)%R.
Proof.
  intro Hb. unfold adam_average. rewrite app_length. cbn [List.length]. set (n := List.length xs).
  replace (n + 1 - 1) with n by lia. replace (n + 1) with (S n) at 2 by lia. cbn [rsum].
  assert (HD := pow_below_1 b n Hb). rewrite Rmult_plus_distr_l. f_equal.
  - rewrite <- !rsum_scal. destruct n as [|m] eqn:En; [cbn; ring|]. apply rsum_ext. intros i Hi.
    rewrite app_nth1 by (fold n; lia). unfold adam_weight. replace (S m - 1) with m by lia. replace (m + 1) with (S m) by lia.
    replace (S m - i) with (S (m - i)) by lia. assert (HD2 := pow_below_1 b m Hb). replace (m + 1) with (S m) in HD2 by lia. cbn [pow] in *. 
    field. split; [|lra]. replace (S m + 1) with (S (S m)) in HD by lia. cbn [pow] in HD. replace (S m + 1) with (S (S m)) by lia. cbn [pow]. lra.
  - unfold adam_weight. rewrite Nat.sub_diag. fold n. rewrite app_nth2 by (fold n; lia). fold n. rewrite Nat.sub_diag. cbn [List.nth pow]. field. lra.
Qed.
Theorem C49_ADAM_uses_averages : forall e b1 b2 step n st st',
  (0 <= b1 < 1)%R -> (0 <= b2 < 1)%R ->
  (run_ADAM e step b1 b2 n 0 (fun _ => 0%R) (fun _ => 0%R) st = (st', Ok tt) <-> adam_trace e b1 b2 step [] st n st').
Proof.
  intros e b1 b2 step n st st' H1 H2.
  assert (G: forall n gs m v st st',
    (forall k, m k = (1 - b1 ^ List.length gs) * adam_average b1 (List.map (fun g : rvec => g k) gs))%R ->
    (forall k, v k = (1 - b2 ^ List.length gs) * adam_average b2 (List.map (fun g : rvec => (g k) ^ 2) gs))%R ->
    run_ADAM e step b1 b2 n (List.length gs) m v st = (st', Ok tt) <-> adam_trace e b1 b2 step gs st n st').
  { clear n st st'. induction n as [|n IH]; intros gs m v st st' Hm Hv.
    - cbn [run_ADAM]. unfold ret. split; intro H; [injection H as <-; constructor|]. inversion H; reflexivity.
    - rewrite run_ADAM_step. unfold bind.
      assert (Em: forall (g : rvec) k, adam_m b1 (m k) (g k) = ((1 - b1 ^ (List.length gs + 1)) * adam_average b1 (List.map (fun g : rvec => g k) (gs ++ [g])))%R).
      { intros g k. rewrite map_app. cbn [List.map]. assert (Q := adam_average_snoc b1 (List.map (fun g : rvec => g k) gs) (g k) H1).
        rewrite map_length in Q. rewrite Q. unfold adam_m. rewrite Hm. reflexivity. }
      assert (Ev: forall (g : rvec) k, adam_v b2 (v k) (g k) = ((1 - b2 ^ (List.length gs + 1)) * adam_average b2 (List.map (fun g : rvec => (g k) ^ 2) (gs ++ [g])))%R).
      { intros g k. rewrite map_app. cbn [List.map]. assert (Q := adam_average_snoc b2 (List.map (fun g : rvec => (g k) ^ 2)%R gs) ((g k) ^ 2)%R H2).
        rewrite map_length in Q. rewrite Q. unfold adam_v. rewrite Hv. reflexivity. }
      assert (ED: forall g : rvec, (fun k => adam_step b1 b2 (adam_m b1 (m k) (g k)) (adam_v b2 (v k) (g k)) (List.length gs)) = adam_direction b1 b2 (gs ++ [g])).
      { intro g. apply functional_extensionality. intro k. unfold adam_step, adam_direction. rewrite Em, Ev.
        assert (D1 := pow_below_1 b1 (List.length gs) H1). assert (D2 := pow_below_1 b2 (List.length gs) H2).
        f_equal; [field; lra|]. do 2 f_equal. field. lra. }
      assert (HI: forall (g : rvec) st1, run_ADAM e step b1 b2 n (S (List.length gs)) (fun k => adam_m b1 (m k) (g k)) (fun k => adam_v b2 (v k) (g k)) st1 = (st', Ok tt)
                    <-> adam_trace e b1 b2 step (gs ++ [g]) st1 n st').
      { intros g st1. assert (EL: S (List.length gs) = List.length (gs ++ [g])) by (rewrite app_length; cbn; lia).
        rewrite EL. apply IH; intro k; [rewrite Em|rewrite Ev]; rewrite app_length; reflexivity. }
      split.
      + intro H. destruct (eval_step e st) as [st1 [g|x]] eqn:E1; [|discriminate H]. rewrite ED in H.
        destruct (update_rho (adam_direction b1 b2 (gs ++ [g])) step st1) as [st2 [[]|x]] eqn:E2; [|discriminate H].
        eapply adam_next; [exact E1|exact E2|]. apply HI, H.
      + intro H. inversion H; subst. match goal with E : eval_step e st = _ |- _ => rewrite E end. rewrite ED.
        match goal with E : update_rho _ _ _ = _ |- _ => rewrite E end. apply HI. assumption. }
  apply (G n [] (fun _ => 0%R) (fun _ => 0%R)); intro k; cbn; ring.
Qed.
(** the estimates are averages: between the least and the greatest value seen *)
Theorem C49_average_between : forall b xs lo hi, (0 <= b < 1)%R -> xs <> [] ->
  (forall x, In x xs -> lo <= x <= hi)%R -> (lo <= adam_average b xs <= hi)%R.
Proof.
  intros b xs lo hi Hb Hn Hx. unfold adam_average. destruct xs as [|x0 xs']; [contradiction|]. set (xs := x0 :: xs') in *.
  assert (HL: List.length xs = S (List.length xs - 1)) by (unfold xs; cbn; lia). set (t := List.length xs - 1) in *. rewrite HL.
  destruct (C49_weights_convex b t Hb) as [HW HS].
  assert (HI: forall i, i < S t -> (lo <= List.nth i xs 0 <= hi)%R) by (intros i Hi; apply Hx, nth_In; lia).
  split.
  - replace lo with (rsum (S t) (fun i => lo * adam_weight b t i))%R by (rewrite rsum_scal, HS; ring).
    apply rsum_le. intros i Hi. specialize (HW i ltac:(lia)). specialize (HI i Hi). rewrite Rmult_comm. apply Rmult_le_compat_l; lra.
  - replace hi with (rsum (S t) (fun i => hi * adam_weight b t i))%R by (rewrite rsum_scal, HS; ring).
    apply rsum_le. intros i Hi. specialize (HW i ltac:(lia)). specialize (HI i Hi). rewrite (Rmult_comm hi). apply Rmult_le_compat_l; lra.
Qed.
(** constant gradient: the step is g/(|g|+1e-8) at every iteration *)
Theorem C49_constant_gradient : forall b1 b2 g t k, (0 <= b1 < 1)%R -> (0 <= b2 < 1)%R ->
  adam_direction b1 b2 (List.repeat g (S t)) k = (g k / (Rabs (g k) + 1 / 10 ^ 8))%R.
Proof.
  intros b1 b2 g t k H1 H2. unfold adam_direction.
  assert (HA: forall b (f : rvec -> R), (0 <= b < 1)%R -> adam_average b (List.map f (List.repeat g (S t))) = f g).
  { intros b f Hb. apply Rle_antisym; apply (C49_average_between b _ (f g) (f g) Hb); try discriminate; intros x Hx;
    apply in_map_iff in Hx as (y & <- & Hy); apply repeat_spec in Hy; subst y; lra. }
  rewrite (HA b1 (fun g => g k)), (HA b2 (fun g => (g k) ^ 2)%R) by assumption.
  replace (g k ^ 2)%R with (Rsqr (g k)) by (unfold Rsqr; ring). rewrite sqrt_Rsqr_abs. reflexivity.
Qed.
(** runs of any length exist (5x4 example) *)
Example C49_met : exists o s, forall e step n, exists st', adam_trace e (9 / 10) (999 / 1000) step [] (upd_current false o, s) n st'.
Proof.
  destruct run_example as (s0 & ob & o & H0 & HO & HOpt & HR & _). exists o, (ex_run_sim o s0). intros e step n.
  destruct (run_succeeds e MADAM n step (9 / 10) (999 / 1000) _ _ _ _ (or_intror eq_refl) HR) as (o1 & s1 & E1 & R1).
  exists (o1, s1). apply C49_ADAM_uses_averages; [lra..|]. exact E1.
Qed.

(* ------------------------------------------------------------------ *)
(** * C50, C51 *)
(** The simulation scan_frequency evaluates for the angular frequency w: the same structure and
    source with the matrix of w *)
Definition at_omega (s : sim) (w : R) : sim := set_eps (s_eps s) (upd_omega w s).
Lemma scan_loop_spec e fs : forall o s o' s' r, scan_loop e fs (o, s) = ((o', s'), r) ->
  s' = s /\ cfg o o' /\ o_objs o' = o_objs o /\ o_src_amps o' = o_src_amps o /\
  (forall l, r = Ok l -> Forall2 (fun f v => fresh_J e o (at_omega s (2 * PI * f)) = Ok v) fs l).
Proof.
  induction fs as [|f t IH]; intros o s o' s' r H.
  - injection H as <- <- <-. split; [reflexivity|]. split; [apply cfg_refl|]. split; [reflexivity|]. split; [reflexivity|].
    intros l Hl. injection Hl as <-. constructor.
  - cbn [scan_loop] in H. destruct (compute_J e _) as [[o1 s1] [J|x]] eqn:E1;
    assert (E1' := compute_J_frame _ _ _ _ _ _ E1); destruct E1' as (C1 & _ & A1 & B1); apply compute_J_fresh' in E1; try reflexivity.
    2: { injection H as <- <- <-. split; [reflexivity|]. split; [exact C1|]. split; [exact A1|]. split; [exact B1|]. intros l Hl. discriminate. }
    destruct (scan_loop e t (o1, s)) as [[o2 s2] [l|x]] eqn:E2; apply IH in E2 as (-> & C2 & A2 & B2 & F2); injection H as <- <- <-;
    (split; [reflexivity|]); (split; [eapply cfg_trans; [exact C1|exact C2]|]); (split; [rewrite A2; exact A1|]); (split; [rewrite B2; exact B1|]); intros l' Hl; [|discriminate].
    injection Hl as <-. constructor; [exact E1|]. specialize (F2 l eq_refl). clear - F2 C1. induction F2 as [|f' v t' l' Hv F2 IHF]; constructor; [|exact IHF].
    rewrite <- Hv. symmetry. apply fresh_cfg. exact C1.
Qed.
(** scan_frequency never changes the optimization's simulation, whatever its outcome; of the
    optimization it changes the stored field arguments and their flag only *)
Theorem C51_frequency_scan_keeps_simulation :
  forall e Nf df o s o' s' r, scan_frequency e Nf df (o, s) = ((o', s'), r) ->
  s' = s /\ cfg o o' /\ o_objs o' = o_objs o /\ o_src_amps o' = o_src_amps o.
Proof.
  intros e Nf df o s o' s' r H. unfold scan_frequency in H. cbn [snd] in H.
  destruct (scan_loop e _ (o, s)) as [[o1 s1] [l|x]] eqn:E; apply scan_loop_spec in E as (-> & C & A & B & _);
  [destruct Nf as [|[|Nf]]|]; injection H as <- <- <-; auto.
Qed.
(** [a, b) is the maximal run of samples around c that satisfy P, among n samples *)
Definition run_around (P : nat -> Prop) (n c a b : nat) : Prop :=
  a <= c < b /\ b <= n /\ (forall i, a <= i < b -> P i) /\ (a = 0 \/ ~ P (a - 1)) /\ (b = n \/ ~ P b).
Definition is_max (l : list R) (m : R) : Prop := In m l /\ forall x, In x l -> (x <= m)%R.
(** sample i lies above half of the maximum m *)
Definition above_half (l : list R) (m : R) (i : nat) : Prop := i < List.length l /\ (m / 2 < List.nth i l 0)%R.
Lemma rmax_spec n f : 0 < n -> (exists i, i < n /\ rmax n f = f i) /\ forall i, i < n -> (f i <= rmax n f)%R.
Proof.
  induction n as [|[|n] IH]; intro Hn; [lia| |].
  - split; [exists 0; auto|]. intros i Hi. replace i with 0 by lia. cbn. lra.
  - destruct (IH ltac:(lia)) as [(i & Hi & E) HB]. change (rmax (S (S n)) f) with (Rmax (rmax (S n) f) (f (S n))). split.
    + unfold Rmax. destruct (Rle_dec _ _); [exists (S n); auto|exists i; split; [lia|exact E]].
    + intros j Hj. destruct (Nat.eq_dec j (S n)) as [->|]; [apply Rmax_r|]. eapply Rle_trans; [apply HB; lia|apply Rmax_l].
Qed.
Lemma rmax_is_max l : l <> [] -> is_max l (rmax (List.length l) (fun i => List.nth i l 0%R)).
Proof.
  intro Hl. destruct (rmax_spec (List.length l) (fun i => List.nth i l 0%R)) as [(i & Hi & E) HB]; [destruct l; [contradiction|cbn; lia]|].
  split; [rewrite E; apply nth_In, Hi|]. intros x Hx. apply (In_nth _ _ 0%R) in Hx as (j & Hj & <-). apply (HB j Hj).
Qed.
Lemma is_max_unique l a b : is_max l a -> is_max l b -> a = b.
Proof. intros [A1 A2] [B1 B2]. apply Rle_antisym; auto. Qed.
Lemma lead_spec (l : list bool) : lead l <= List.length l /\ (forall i, i < lead l -> List.nth i l false = true) /\
  (lead l = List.length l \/ List.nth (lead l) l true = false).
Proof.
  induction l as [|[] l (L1 & L2 & L3)]; cbn; [split; [lia|split; [intros i Hi; lia|left; reflexivity]]|..].
  - split; [lia|]. split; [intros [|i] Hi; [reflexivity|apply L2; lia]|]. destruct L3; [left; lia|right; assumption].
  - split; [lia|]. split; [intros i Hi; lia|right; reflexivity].
Qed.
Section Peak.
Variable objs : list R.
Hypothesis Hn : objs <> [].
Let Nf := List.length objs.
Let m := rmax Nf (fun i => List.nth i objs 0%R).
Let above := fun i => if Rlt_dec (m / 2) (List.nth i objs 0%R) then true else false.
Lemma above_iff i : i < Nf -> (above i = true <-> above_half objs m i).
Proof. intro Hi. unfold above, above_half. destruct (Rlt_dec _ _); split; intro H; try discriminate; try tauto. Qed.
Let up := lead (List.map above (List.seq (Nf / 2) (Nf - Nf / 2))).
Let dn := lead (List.map above (List.rev (List.seq 0 (Nf / 2)))).
Lemma num_above_parts : num_above objs = up + dn. Proof. reflexivity. Qed.
Lemma half_lt : Nf / 2 < Nf.
Proof. apply Nat.div_lt; [unfold Nf; destruct objs; [contradiction|cbn; lia]|lia]. Qed.
Lemma up_spec : Nf / 2 + up <= Nf /\ (forall i, Nf / 2 <= i < Nf / 2 + up -> above_half objs m i) /\ (Nf / 2 + up = Nf \/ ~ above_half objs m (Nf / 2 + up)).
Proof.
  assert (HL := half_lt). destruct (lead_spec (List.map above (List.seq (Nf / 2) (Nf - Nf / 2)))) as (L1 & L2 & L3).
  fold up in L1, L2, L3. rewrite map_length, seq_length in L1, L3.
  assert (HNth: forall i d, i < Nf - Nf / 2 -> List.nth i (List.map above (List.seq (Nf / 2) (Nf - Nf / 2))) d = above (Nf / 2 + i)).
  { intros i d Hi. rewrite (nth_indep _ d (above 0)) by (rewrite map_length, seq_length; exact Hi). rewrite map_nth, seq_nth by exact Hi. reflexivity. }
  split; [lia|]. split.
  - intros i Hi. specialize (L2 (i - Nf / 2) ltac:(lia)). rewrite HNth in L2 by lia. replace (Nf / 2 + (i - Nf / 2)) with i in L2 by lia. apply above_iff; [lia|exact L2].
  - destruct (Nat.eq_dec up (Nf - Nf / 2)) as [E|N]; [left; lia|]. destruct L3 as [L3|L3]; [left; lia|]. right. rewrite HNth in L3 by lia.
    intro HA. apply above_iff in HA; [congruence|lia].
Qed.
Lemma dn_spec : dn <= Nf / 2 /\ (forall i, Nf / 2 - dn <= i < Nf / 2 -> above_half objs m i) /\ (Nf / 2 - dn = 0 \/ ~ above_half objs m (Nf / 2 - dn - 1)).
Proof.
  assert (HL := half_lt). destruct (lead_spec (List.map above (List.rev (List.seq 0 (Nf / 2))))) as (L1 & L2 & L3).
  fold dn in L1, L2, L3. rewrite map_length, rev_length, seq_length in L1, L3.
  assert (HNth: forall i d, i < Nf / 2 -> List.nth i (List.map above (List.rev (List.seq 0 (Nf / 2)))) d = above (Nf / 2 - S i)).
  { intros i d Hi. rewrite (nth_indep _ d (above 0)) by (rewrite map_length, rev_length, seq_length; exact Hi).
    rewrite map_nth, rev_nth by (rewrite seq_length; exact Hi). rewrite seq_length, seq_nth by lia. reflexivity. }
  split; [lia|]. split.
  - intros i Hi. specialize (L2 (Nf / 2 - S i) ltac:(lia)). rewrite HNth in L2 by lia. replace (Nf / 2 - S (Nf / 2 - S i)) with i in L2 by lia. apply above_iff; [lia|exact L2].
  - destruct (Nat.eq_dec dn (Nf / 2)) as [E|N]; [left; lia|]. destruct L3 as [L3|L3]; [left; lia|]. right. rewrite HNth in L3 by lia.
    intro HA. replace (Nf / 2 - dn - 1) with (Nf / 2 - S dn) in HA by lia. apply above_iff in HA; [congruence|lia].
Qed.
Lemma peak_width : above_half objs m (Nf / 2) ->
  exists a b, run_around (above_half objs m) Nf (Nf / 2) a b /\ num_above objs = b - a.
Proof.
  intro HA. destruct up_spec as (U1 & U2 & U3). destruct dn_spec as (D1 & D2 & D3). assert (HL := half_lt).
  assert (Hup: up <> 0). { intro E. rewrite E, Nat.add_0_r in U3. destruct U3; [lia|contradiction]. }
  exists (Nf / 2 - dn), (Nf / 2 + up). split; [|rewrite num_above_parts; lia].
  split; [lia|]. split; [exact U1|]. split; [|split; assumption].
  intros i Hi. destruct (Nat.lt_ge_cases i (Nf / 2)); [apply D2; lia|apply U2; lia].
Qed.
Lemma below_centre : ~ above_half objs m (Nf / 2) ->
  exists a, a <= Nf / 2 /\ (forall i, a <= i < Nf / 2 -> above_half objs m i) /\ (a = 0 \/ ~ above_half objs m (a - 1)) /\ num_above objs = Nf / 2 - a.
Proof.
  intro HA. destruct up_spec as (U1 & U2 & U3). destruct dn_spec as (D1 & D2 & D3).
  assert (Hup: up = 0). { destruct (Nat.eq_dec up 0); [assumption|]. exfalso. apply HA, U2. lia. }
  exists (Nf / 2 - dn). split; [lia|]. split; [intros i Hi; apply D2; lia|]. split; [exact D3|]. rewrite num_above_parts. lia.
Qed.
End Peak.
(** What scan_frequency returns.  With Nf samples the central one is number Nf/2 (rounded down).
    If it lies above half maximum, the width is the frequency step times the length of the
    maximal run of samples above half maximum around it; if not, the run that ends just below
    the centre is counted instead. *)
Theorem C50_scan_values_and_width_partial :
  forall e Nf df o s st' fs objs width, scan_frequency e Nf df (o, s) = (st', Ok (fs, objs, width)) ->
  2 <= Nf /\ List.length fs = Nf /\ List.length objs = Nf /\
  (forall i, i < Nf -> List.nth i fs 0%R = (s_omega s * (1 - df / 2 + INR i * (df / INR (Nf - 1))) / (2 * PI))%R) /\
  (forall i, i < Nf -> fresh_J e o (at_omega s (2 * PI * List.nth i fs 0%R)) = Ok (List.nth i objs 0%R)) /\
  forall m, is_max objs m -> exists n : nat, width = (INR n * (s_omega s * df / INR (Nf - 1) / (2 * PI)))%R /\
    (above_half objs m (Nf / 2) -> exists a b, run_around (above_half objs m) Nf (Nf / 2) a b /\ n = b - a) /\
    (~ above_half objs m (Nf / 2) -> exists a, a <= Nf / 2 /\ (forall i, a <= i < Nf / 2 -> above_half objs m i) /\
       (a = 0 \/ ~ above_half objs m (a - 1)) /\ n = Nf / 2 - a).
Proof.
  intros e Nf df o s st' fs objs width H. unfold scan_frequency in H. cbn [snd] in H.
  destruct (scan_loop e _ (o, s)) as [[o1 s1] [l|x]] eqn:E; [|discriminate]. destruct Nf as [|[|Nf]]; try discriminate.
  apply scan_loop_spec in E as (-> & _ & _ & _ & F). specialize (F l eq_refl). injection H as _ <- <- <-.
  set (N := S (S Nf)) in *. set (fs := List.map (scan_freq (s_omega s) df N) (List.seq 0 N)) in *.
  assert (HLf: List.length fs = N) by (unfold fs; rewrite map_length, seq_length; reflexivity).
  assert (HLo: List.length l = N).
  { rewrite <- HLf. clear - F. induction F; cbn; congruence. }
  assert (HPI := PI_RGT_0). assert (HN: (0 < INR (N - 1))%R) by (apply lt_0_INR; unfold N; lia).
  assert (Hf: forall i, i < N -> List.nth i fs 0%R = (s_omega s * (1 - df / 2 + INR i * (df / INR (N - 1))) / (2 * PI))%R).
  { intros i Hi. unfold fs. rewrite (nth_indep _ 0%R (scan_freq (s_omega s) df N 0)) by (rewrite map_length, seq_length; exact Hi).
    rewrite map_nth, seq_nth by exact Hi. unfold scan_freq, linspace. replace (Nat.leb N 1) with false by reflexivity. rewrite Nat.add_0_l. field. lra. }
  split; [unfold N; lia|]. split; [exact HLf|]. split; [exact HLo|]. split; [exact Hf|]. split.
  - intros i Hi. assert (G: forall (P : R -> R -> Prop) a b, Forall2 P a b -> forall j, j < List.length a -> P (List.nth j a 0%R) (List.nth j b 0%R)).
    { clear. intros P a b F. induction F; intros j Hj; cbn in *; [lia|]. destruct j; [assumption|apply IHF; lia]. }
    apply (G _ _ _ F). lia.
  - intros m Hm. assert (Hne: l <> []) by (intro Z; rewrite Z in HLo; discriminate).
    assert (Em: m = rmax (List.length l) (fun i => List.nth i l 0%R)) by (eapply is_max_unique; [exact Hm|apply rmax_is_max, Hne]).
    exists (num_above l). split; [|rewrite <- HLo, Em; split; [apply peak_width, Hne|apply below_centre, Hne]].
    f_equal. change (List.nth 1 fs 0 - List.nth 0 fs 0 = s_omega s * df / INR (N - 1) / (2 * PI))%R. rewrite (Hf 0), (Hf 1) by (unfold N; lia). cbn [INR]. field. lra.
Qed.
(** the property: the width counts the run of samples around the centre, nothing if the centre is
    not above half maximum *)
Definition C50_property : Prop :=
  forall e Nf df o s st' fs objs width m, scan_frequency e Nf df (o, s) = (st', Ok (fs, objs, width)) -> is_max objs m ->
  exists n : nat, width = (INR n * (List.nth 1 fs 0 - List.nth 0 fs 0))%R /\
    (above_half objs m (Nf / 2) -> exists a b, run_around (above_half objs m) Nf (Nf / 2) a b /\ n = b - a) /\
    (~ above_half objs m (Nf / 2) -> n = 0).
(** fields of a uniform structure without PML with a uniform source: no derivative contributes *)
Lemma uniform_row w Nx Ny xr yr d v c k : 2 <= Nx -> 2 <= Ny -> dL Nx Ny xr yr = (d, d) -> d <> 0%R -> k < Nx * Ny ->
  mv (Nx * Ny) (fst (construct_A w xr yr Nx Ny (cvec (fun _ => v)) (0,0) PolEz 1 true)) (fun _ => c) k = (RtoC (w ^ 2 * EPSILON_0 * v) * c)%C.
Proof.
  intros HNx HNy Hd Hd0 Hk. destruct (pix_bound _ _ _ Hk) as (i & j & Hi & Hj & ->).
  rewrite (mv_construct_Ez_stencil w 1 Nx Ny xr yr _ true d) by (assumption || lra). unfold laplacian, cvec.
  rewrite !Rmult_1_r. rewrite (RtoC_mult _ v).
  replace (c + c + c + c - RtoC 4 * c)%C with (RtoC 0) by (replace (RtoC 4) with (RtoC 1 + RtoC 1 + RtoC 1 + RtoC 1)%C by cring; ring).
  unfold Cdiv. ring.
Qed.
Lemma uniform_solution e w Nx Ny xr yr v a X : solver_exact e -> 2 <= Nx -> 2 <= Ny -> dL Nx Ny xr yr = (1%R, 1%R) ->
  (8 < w ^ 2 * (EPSILON_0 * MU_0) * v)%R -> (w <> 0)%R ->
  solver_direct e (Nx * Ny) (fst (construct_A w xr yr Nx Ny (cvec (fun _ => v)) (0,0) PolEz 1 true))
    (fun k => a * Ci * RtoC w)%C (DEFAULT_SOLVER e) = Ok X ->
  forall k, k < Nx * Ny -> X k = (a * (Ci / RtoC (w * EPSILON_0 * v)))%C.
Proof.
  intros He HNx HNy Hd H8 Hw HX. assert (PE := EPSILON_0_pos). assert (PM := MU_0_pos).
  assert (HN: nonsingular (Nx * Ny) (fst (construct_A w xr yr Nx Ny (cvec (fun _ => v)) (0,0) PolEz 1 true))).
  { apply Ez_nonsingular with (d := 1%R); try assumption; try lra. intros k Hk.
    replace (w ^ 2 * (EPSILON_0 * 1) * (MU_0 * 1) * (1 * 1) * v)%R with (w ^ 2 * (EPSILON_0 * MU_0) * v)%R by ring. exact H8. }
  assert (HS := solver_direct_correct _ _ _ _ _ _ He HN HX). apply (solves_unique _ _ _ _ _ HN HS).
  intros k Hk. change (mv (Nx * Ny) (fst (construct_A w xr yr Nx Ny (cvec (fun _ => v)) (0,0) PolEz 1 true))
    (fun _ => (a * (Ci / RtoC (w * EPSILON_0 * v)))%C) k = (a * Ci * RtoC w)%C).
  rewrite (uniform_row w Nx Ny xr yr 1 v _ k HNx HNy Hd ltac:(lra) Hk).
  assert (HV: (v <> 0)%R) by (intro Z; rewrite Z in H8; lra).
  replace (w ^ 2 * EPSILON_0 * v)%R with (w * (w * EPSILON_0 * v))%R by ring. rewrite (RtoC_mult w (w * EPSILON_0 * v)). field.
  apply RtoC_neq0. apply Rmult_integral_contrapositive_currified; [apply Rmult_integral_contrapositive_currified|]; lra.
Qed.
(** the uniform 2x2 example at the frequency w near ex_omega *)
Lemma uniform_at s0 w : fam_sim "Ez" 2 2 0 0 (fun _ => 1%R) = Ok s0 -> (ex_omega * (39 / 40) <= w)%R ->
  let s := upd_src (mkNd 2 2 (fun _ => RtoC 1)) s0 in
  forall k, k < 4 -> lin_solution ex_env (at_omega s w) k = (Ci / RtoC (w * EPSILON_0))%C.
Proof.
  intros H0 Hw s k Hk. destruct (Simulation_fields _ _ _ _ _ _ _ H0) as (E1 & E2 & E3 & E4 & E5 & E6 & E7 & E8 & P1 & P2 & E9 & EP & _ & _).
  specialize (E9 _ _ eq_refl). specialize (EP eq_refl). cbn [nd_nx nd_ny] in *. change (Z.to_nat (Z.of_nat 0)) with 0 in E9.
  assert (HO := ex_omega_pos). assert (HO2 := ex_omega_sq).
  unfold lin_solution. set (s1 := at_omega s w).
  assert (HM: s_M s1 = 2 * 2) by (unfold s_M, s1, at_omega, s; cbn; rewrite E5; reflexivity).
  assert (HA: s_A s1 = fst (construct_A w (0, INR 2 * 1)%R (0, INR 2 * 1)%R 2 2 (cvec (fun _ => 1%R)) (0,0) PolEz 1 true)).
  { unfold s1, at_omega, s, set_eps. cbn. rewrite E5, E6, E7, E9, EP, E2. reflexivity. }
  destruct (solver_direct_default_ok ex_env (s_M s1) (s_A s1) (rhs s1)) as [X HX]. rewrite HX. rewrite HM, HA in HX.
  change (rhs s1) with (fun k : nat => (RtoC 1 * Ci * RtoC w)%C) in HX.
  rewrite (uniform_solution ex_env w 2 2 _ _ 1 (RtoC 1) X ex_env_exact ltac:(lia) ltac:(lia) (dL_new 2 2 1 ltac:(lia) ltac:(lia)) ltac:(nra) ltac:(lra) HX k Hk).
  rewrite Rmult_1_r. ring.
Qed.
Definition shifted_intensity (v : R) : pyfun :=
  mkFun 1 (fun Fs => (Cnorm2 (List.nth 0 Fs vzero 0%nat) - v)%R) (fun i Fs k => RtoC 0).
Lemma scan_loop_ok e fs : forall o s, (forall f, In f fs -> exists v, fresh_J e o (at_omega s (2 * PI * f)) = Ok v) ->
  exists o' l, scan_loop e fs (o, s) = ((o', s), Ok l).
Proof.
  induction fs as [|f t IH]; intros o s H; [exists o, []; reflexivity|]. cbn [scan_loop].
  destruct (H f (or_introl eq_refl)) as [v Hv]. fold (at_omega s (2 * PI * f)).
  destruct (compute_J e (upd_current false o, at_omega s (2 * PI * f))) as [[o1 s1] r] eqn:E1. assert (E2 := E1). apply compute_J_fresh' in E2; [|reflexivity].
  change (fresh_J e (upd_current false o) (at_omega s (2 * PI * f))) with (fresh_J e o (at_omega s (2 * PI * f))) in E2. rewrite Hv in E2. subst r.
  apply compute_J_frame in E1 as (C1 & _). destruct (IH o1 s) as (o2 & l & E).
  - intros f' Hf'. destruct (H f' (or_intror Hf')) as [v' Hv']. exists v'. rewrite <- Hv'. apply fresh_cfg. exact C1.
  - rewrite E. eauto.
Qed.
Lemma scan_example v : exists o s, s_omega s = ex_omega /\
  forall w, (ex_omega * (39 / 40) <= w)%R -> fresh_J ex_env o (at_omega s w) = Ok (1 / (w * EPSILON_0) ^ 2 - v)%R.
Proof.
  destruct (fam_sim_ok "Ez" 2 2 0 0 (fun _ => 1%R) (or_introl eq_refl)) as [s0 H0].
  set (s := upd_src (mkNd 2 2 (fun _ => RtoC 1)) s0).
  exists (mkOpt (set_J (shifted_intensity v) [Ez_lin]) (fun _ => 1%R) rId (1 / 2) 10 5 "linear" "hybrid" None [] [] false None), s.
  destruct (Simulation_fields _ _ _ _ _ _ _ H0) as (E1 & E2 & E3 & E4 & E5 & E6 & E7 & E8 & P1 & P2 & E9 & EP & _ & _). specialize (EP eq_refl).
  split; [exact E1|]. intros w Hw. assert (HX := uniform_at s0 w H0 Hw 0 ltac:(lia)). fold s in HX.
  match goal with |- fresh_J _ ?oo _ = _ => set (o := oo) end.
  assert (HJ := compute_J_lin ex_env o (at_omega s w) (shifted_intensity v) [Ez_lin] eq_refl eq_refl EP).
  assert (HM: nd_size (s_src (at_omega s w)) = s_M (at_omega s w)) by (unfold s_M, at_omega, s; cbn; rewrite E5; reflexivity).
  specialize (HJ HM ltac:(constructor; [split; [split; [reflexivity|left; reflexivity]|reflexivity]|constructor]) eq_refl).
  apply compute_J_fresh' in HJ; [|reflexivity]. rewrite HJ. f_equal.
  change (Cnorm2 (lin_solution ex_env (at_omega s w) 0%nat) - v = 1 / (w * EPSILON_0) ^ 2 - v)%R. rewrite HX. f_equal.
  assert (PE := EPSILON_0_pos). assert (PO := ex_omega_pos). assert (Hp: (0 < w * EPSILON_0)%R) by nra.
  replace (Ci / RtoC (w * EPSILON_0))%C with (Ci * RtoC (/ (w * EPSILON_0)))%C by (rewrite RtoC_inv by lra; reflexivity).
  unfold Cnorm2. autorewrite with reim. field. lra.
Qed.
(** refuted: 2 samples; the second (the centre) is not above half maximum, the first is *)
Theorem C50_centre_not_on_peak_refuted : ~ C50_property.
Proof.
  intro HP. assert (PE := EPSILON_0_pos). assert (PO := ex_omega_pos). assert (HPI := PI_RGT_0).
  set (w0 := (ex_omega * (39 / 40))%R). set (w1 := (ex_omega * (41 / 40))%R).
  set (v1 := (1 / (w1 * EPSILON_0) ^ 2)%R). set (v0 := (1 / (w0 * EPSILON_0) ^ 2)%R).
  assert (HV: (v1 < v0)%R).
  { unfold v0, v1, Rdiv. rewrite !Rmult_1_l. apply Rinv_lt_contravar.
    - apply Rmult_lt_0_compat; apply pow_lt; unfold w0, w1; nra.
    - apply pow_incr_lt || (assert (Q: (w0 * EPSILON_0 < w1 * EPSILON_0)%R) by (unfold w0, w1; nra); assert (Q0: (0 < w0 * EPSILON_0)%R) by (unfold w0; nra); cbn [pow]; nra). }
  destruct (scan_example v1) as (o & s & HO & HF).
  set (f0 := (w0 / (2 * PI))%R). set (f1 := (w1 / (2 * PI))%R).
  assert (HFs: List.map (scan_freq (s_omega s) (1 / 20) 2) (List.seq 0 2) = [f0; f1]).
  { rewrite HO. cbn [List.seq List.map]. unfold scan_freq, linspace. cbn [Nat.leb Nat.sub INR]. unfold f0, f1, w0, w1. f_equal; [|f_equal]; field; lra. }
  assert (G0: fresh_J ex_env o (at_omega s (2 * PI * f0)) = Ok (v0 - v1)%R).
  { replace (2 * PI * f0)%R with w0 by (unfold f0; field; lra). apply HF. unfold w0. lra. }
  assert (G1: fresh_J ex_env o (at_omega s (2 * PI * f1)) = Ok (v1 - v1)%R).
  { replace (2 * PI * f1)%R with w1 by (unfold f1; field; lra). apply HF. unfold w1. lra. }
  assert (HL: exists o' l, scan_loop ex_env [f0; f1] (o, s) = ((o', s), Ok l)).
  { apply scan_loop_ok. intros f [<-|[<-|[]]]; eauto. }
  destruct HL as (o' & l & HL). assert (HL' := HL). apply scan_loop_spec in HL' as (_ & _ & _ & _ & F). specialize (F l eq_refl).
  inversion F as [|a b c d F1 F2]; subst. inversion F2 as [|a' b' c' d' F3 F4]; subst. inversion F4; subst.
  rewrite G0 in F1. injection F1 as <-. rewrite G1 in F3. injection F3 as <-.
  assert (HS: scan_frequency ex_env 2 (1 / 20) (o, s) = ((o', s), Ok ([f0; f1], [(v0 - v1)%R; (v1 - v1)%R], (INR (num_above [(v0 - v1)%R; (v1 - v1)%R]) * (f1 - f0))%R))).
  { unfold scan_frequency. cbn [snd]. rewrite HFs, HL. reflexivity. }
  destruct (HP _ _ _ _ _ _ _ _ _ (v0 - v1)%R HS) as (n & W & _ & Z).
  { split; [left; reflexivity|]. intros x [<-|[<-|[]]]; lra. }
  rewrite Z in W. 2: { intros [_ A]. cbn in A. lra. }
  cbn [List.nth INR] in W. assert (HN: num_above [(v0 - v1)%R; (v1 - v1)%R] = 1).
  { unfold num_above. cbn [List.length rmax List.nth Nat.div Nat.divmod fst snd Nat.sub List.seq List.rev List.app List.map].
    replace (Rmax (v0 - v1) (v1 - v1)) with (v0 - v1)%R by (unfold Rmax; destruct (Rle_dec _ _); lra).
    cbn [List.seq List.rev List.app List.map Nat.div Nat.divmod fst snd Nat.sub List.nth].
    destruct (Rlt_dec ((v0 - v1) / 2) (v1 - v1)); [lra|]. destruct (Rlt_dec ((v0 - v1) / 2) (v0 - v1)); [reflexivity|lra]. }
  rewrite HN in W. cbn [INR] in W. assert (HD: (f1 - f0 = (w1 - w0) * / (2 * PI))%R) by (unfold f0, f1; field; lra).
  assert (HI: (0 < / (2 * PI))%R) by (apply Rinv_0_lt_compat; lra). assert (HW: (0 < w1 - w0)%R) by (unfold w0, w1; lra).
  assert (0 < f1 - f0)%R by (rewrite HD; apply Rmult_lt_0_compat; assumption). lra.
Qed.
(** and a scan whose central sample is on the peak: the first sample is the largest, all three are
    above half maximum *)
Example C50_met : exists o s st' fs objs width m, scan_frequency ex_env 3 (1 / 20) (o, s) = (st', Ok (fs, objs, width)) /\
  is_max objs m /\ above_half objs m (3 / 2).
Proof.
  assert (PE := EPSILON_0_pos). assert (PO := ex_omega_pos). assert (HPI := PI_RGT_0).
  destruct (scan_example 0%R) as (o & s & HO & HF). set (fr := scan_freq (s_omega s) (1 / 20) 3).
  assert (HW: forall i, i < 3 -> (ex_omega * (39 / 40) <= 2 * PI * fr i <= ex_omega * (41 / 40))%R).
  { intros i Hi. unfold fr, scan_freq, linspace. rewrite HO. cbn [Nat.leb Nat.sub].
    assert (HZ: forall z, (2 * PI * (1 / 2 / PI * z))%R = z) by (intro z; field; lra). rewrite !HZ.
    destruct i as [|[|[|i]]]; [cbn [INR]; lra..|lia]. }
  assert (G: forall i, i < 3 -> fresh_J ex_env o (at_omega s (2 * PI * fr i)) = Ok (1 / (2 * PI * fr i * EPSILON_0) ^ 2 - 0)%R) by (intros i Hi; apply HF, HW, Hi).
  assert (HL: exists o' l, scan_loop ex_env (List.map fr (List.seq 0 3)) (o, s) = ((o', s), Ok l)).
  { apply scan_loop_ok. intros f Hf. apply in_map_iff in Hf as (i & <- & Hi). apply in_seq in Hi. eexists. apply G. lia. }
  destruct HL as (o' & l & HL). exists o, s.
  assert (HS: exists width, scan_frequency ex_env 3 (1 / 20) (o, s) = ((o', s), Ok (List.map fr (List.seq 0 3), l, width))).
  { unfold scan_frequency. cbn [snd]. fold fr. rewrite HL. eexists. reflexivity. }
  destruct HS as [width HS]. do 5 eexists. split; [exact HS|]. apply scan_loop_spec in HL as (_ & _ & _ & _ & F). specialize (F l eq_refl).
  cbn [List.seq List.map] in F. inversion F as [|a1 b1 c1 d1 F1 Ft1]; subst. inversion Ft1 as [|a2 b2 c2 d2 F2 Ft2]; subst. inversion Ft2 as [|a3 b3 c3 d3 F3 Ft3]; subst. inversion Ft3; subst.
  rewrite G in F1, F2, F3 by lia. injection F1 as <-. injection F2 as <-. injection F3 as <-.
  split; [apply rmax_is_max; discriminate|]. split; [cbn; lia|].
  match goal with |- (?m / 2 < _)%R => assert (HB: (m <= 1 / (ex_omega * (39 / 40) * EPSILON_0) ^ 2)%R) end.
  { match goal with |- (rmax _ ?f <= _)%R => destruct (rmax_spec 3 f ltac:(lia)) as [(i & Hi & Ei) _] end. cbn [List.length]. rewrite Ei.
    assert (Q: forall i, i < 3 -> (1 / (2 * PI * fr i * EPSILON_0) ^ 2 - 0 <= 1 / (ex_omega * (39 / 40) * EPSILON_0) ^ 2)%R).
    { intros j Hj. specialize (HW j Hj). rewrite Rminus_0_r. unfold Rdiv. rewrite !Rmult_1_l. apply Rinv_le_contravar; [apply pow_lt, Rmult_lt_0_compat; lra|]. apply pow_incr. split; [left; apply Rmult_lt_0_compat; lra|apply Rmult_le_compat_r; lra]. }
    destruct i as [|[|[|i]]]; [apply Q; lia..|lia]. }
  match goal with |- (?m / 2 < _)%R => set (mm := m) in * end. cbn [List.nth Nat.div Nat.divmod fst]. rewrite Rminus_0_r. apply Rle_lt_trans with (1 / (ex_omega * (39 / 40) * EPSILON_0) ^ 2 / 2)%R; [lra|].
  apply Rlt_le_trans with (1 / (ex_omega * (41 / 40) * EPSILON_0) ^ 2)%R.
  - assert (Hx: (0 < ex_omega * EPSILON_0)%R) by nra.
    replace (1 / (ex_omega * (39 / 40) * EPSILON_0) ^ 2 / 2)%R with (800 / 1521 * / (ex_omega * EPSILON_0) ^ 2)%R by (field; lra).
    replace (1 / (ex_omega * (41 / 40) * EPSILON_0) ^ 2)%R with (1600 / 1681 * / (ex_omega * EPSILON_0) ^ 2)%R by (field; lra).
    apply Rmult_lt_compat_r; [apply Rinv_0_lt_compat, pow_lt, Hx|lra].
  - specialize (HW 1 ltac:(lia)). change (2 * PI * fr 1%nat * EPSILON_0 * (2 * PI * fr 1%nat * EPSILON_0 * 1))%R with ((2 * PI * fr 1%nat * EPSILON_0) ^ 2)%R. unfold Rdiv. rewrite !Rmult_1_l. apply Rinv_le_contravar; [apply pow_lt, Rmult_lt_0_compat; lra|]. apply pow_incr. split; [left; apply Rmult_lt_0_compat; lra|apply Rmult_le_compat_r; lra].
Qed.

(* ------------------------------------------------------------------ *)
(** * C53 *)
Theorem C53_objective_checks_arity :
  forall J args,
  (Objective J args = Raise ValueError <-> List.length args <> pf_arity J) /\
  (List.length args = pf_arity J -> exists ob, Objective J args = Ok ob /\ ob_args ob = args /\ ob_J ob = J) /\
  forall ob, Objective J args = Ok ob -> (is_linear ob = true <-> forall a, In a args -> oa_nl a = false).
Proof.
  intros J args. unfold Objective. destruct (Nat.eqb_spec (List.length args) (pf_arity J)) as [E|E]; cbn [negb].
  - split; [split; [discriminate|contradiction]|]. split; [intros _; eexists; split; [reflexivity|split; reflexivity]|].
    intros ob H. injection H as <-. unfold is_linear. cbn [set_J ob_args]. rewrite forallb_forall. split; intros H a Ha; specialize (H a Ha); destruct (oa_nl a); auto.
  - split; [split; auto|]. split; [contradiction|discriminate].
Qed.
(** An evaluation of the objective performs the linear solve and then a nonlinear solve exactly when
    some argument is nonlinear: the simulation it leaves is the one after these solves. *)
Theorem C53_nonlinear_solve_iff_nonlinear_argument :
  forall e o s o' s' v, o_current o = false -> compute_J e (o, s) = ((o', s'), Ok v) ->
  exists s1 F, solve_fields e false false s = (s1, Ok F) /\
    ((forall a, In a (ob_args (o_objective o)) -> oa_nl a = false) -> s' = s1 /\ s_fields_nl s' = s_fields_nl s) /\
    ((exists a, In a (ob_args (o_objective o)) /\ oa_nl a = true) ->
       exists F2, solve_fields_nl_default e s1 = (s', Ok F2) /\ s_fields_nl s' (pol_comp (s_pol s)) <> None).
Proof.
  intros e o s o' s' v Hc H. unfold compute_J, bind, getS, lift, solve_arg_fields, needs_solve in H. rewrite Hc in H. cbn [negb] in H.
  destruct (solve_fields e false false s) as [s1 [F|x]] eqn:E1; [|discriminate]. exists s1, F. split; [reflexivity|].
  assert (HL := lin_solve_same _ _ _ _ _ E1). destruct HL as [HS HF].
  destruct (is_linear (o_objective o)) eqn:EL.
  - unfold is_linear in EL. rewrite forallb_forall in EL. split.
    + intros _. destruct (arg_fields s1 _) as [l|]; [|discriminate]. injection H as _ <- _. split; [reflexivity|exact HF].
    + intros (a & Ha & Hn). apply EL in Ha. rewrite Hn in Ha. discriminate.
  - split.
    + intro HN. exfalso. assert (is_linear (o_objective o) = true); [|congruence]. unfold is_linear. apply forallb_forall. intros a Ha. rewrite (HN a Ha). reflexivity.
    + intros _. destruct (solve_fields_nl_default e s1) as [s2 [F2|x]] eqn:E2; [|discriminate]. destruct (arg_fields s2 _) as [l|]; [|discriminate].
      injection H as _ <- _. exists F2. split; [reflexivity|].
      assert (EP: s_pol s2 = s_pol s) by (apply nl_solve_same in E2; transitivity (s_pol s1); [apply E2|apply HS]).
      unfold solve_fields_nl_default, solve_fields_nl in E2. destruct (run_solver_nl _ _ _ _ _ _ _) as [s3 [[[[x y] z] conv]|]]; [|discriminate].
      injection E2 as <- _. cbn [upd_fields_nl s_fields_nl s_pol] in *. rewrite EP. unfold store3, fset. destruct (s_pol s); cbn; discriminate.
Qed.
Lemma arg_fields_missing s l : (exists a, In a l /\ (if oa_nl a then s_fields_nl s (oa_comp a) else s_fields s (oa_comp a)) = None) -> arg_fields s l = Raise ValueError.
Proof.
  induction l as [|b l IH]; intros (a & Ha & E); [destruct Ha|]. cbn [arg_fields]. destruct Ha as [->|Ha]; [rewrite E; reflexivity|].
  destruct (if oa_nl b then _ else _); [|reflexivity]. rewrite IH by eauto. reflexivity.
Qed.
(** Asking for a component of the other polarization: ValueError, as soon as the solves themselves
    succeed; the evaluation never returns a value.  [tidy]: no field of the other polarization is
    stored, as in every simulation obtained from the constructor (tidy_Simulation). *)
Theorem C53_other_polarization_raises :
  forall e o s, o_current o = false -> tidy s ->
  (exists a, In a (ob_args (o_objective o)) /\ ~ of_pol (s_pol s) (oa_comp a)) ->
  exists st' x, compute_J e (o, s) = (st', Raise x) /\
    ((exists s1 F1, solve_fields e false false s = (s1, Ok F1) /\
       (is_linear (o_objective o) = true \/ exists s2 F2, solve_fields_nl_default e s1 = (s2, Ok F2))) -> x = ValueError).
Proof.
  intros e o s Hc HT (a & Ha & Hp). unfold compute_J, bind, getS, lift, solve_arg_fields, needs_solve. rewrite Hc. cbn [negb].
  destruct (solve_fields e false false s) as [s1 [F|x]] eqn:E1.
  2: { do 2 eexists. split; [reflexivity|]. intros (s2 & F1 & H & _). discriminate. }
  assert (T1 := lin_solve_tidy _ _ _ _ _ E1). destruct T1 as [S1 T1]. specialize (T1 HT).
  assert (HR: forall s2, tidy s2 -> s_pol s2 = s_pol s -> arg_fields s2 (ob_args (o_objective o)) = Raise ValueError).
  { intros s2 T2 E2. apply arg_fields_missing. exists a. split; [exact Ha|]. rewrite <- E2 in Hp. destruct (T2 _ Hp) as [-> ->]. destruct (oa_nl a); reflexivity. }
  destruct (is_linear (o_objective o)).
  - rewrite (HR s1 T1) by apply S1. do 2 eexists. split; [reflexivity|auto].
  - destruct (solve_fields_nl_default e s1) as [s2 [F2|x]] eqn:E2.
    + assert (T2 := nl_solve_tidy _ _ _ _ E2). destruct T2 as [S2 T2]. rewrite (HR s2 (T2 T1)) by (transitivity (s_pol s1); [apply S2|apply S1]).
      do 2 eexists. split; [reflexivity|auto].
    + do 2 eexists. split; [reflexivity|]. intros (s3 & F1 & H & [H2|(s4 & F4 & H4)]); [discriminate|]. injection H as <- <-. rewrite E2 in H4. discriminate.
Qed.
(** a 5x4 Ez simulation asked for Hz *)
Example C53_met : exists o s, o_current o = false /\ tidy s /\ (exists a, In a (ob_args (o_objective o)) /\ ~ of_pol (s_pol s) (oa_comp a)) /\
  forall e, exists s1 F1, solve_fields e false false s = (s1, Ok F1) /\ is_linear (o_objective o) = true.
Proof.
  destruct run_example as (s0 & ob & o & H0 & HO & HOpt & HR & _). set (s := ex_run_sim o s0) in *.
  exists (mkOpt (set_J (intensity 20 1) [mkArg Hz false grad_linear_Hz]) (fun _ => 1%R) rId (1 / 2) 10 5 "linear" "hybrid" None [] [] false None), s.
  split; [reflexivity|]. split; [apply tidy_set_eps|]. destruct HR as (G1 & G2 & _). split.
  - eexists. split; [left; reflexivity|]. rewrite G1. intros [H|[H|H]]; discriminate.
  - intro e. unfold solve_fields. rewrite G2, Nat.eqb_refl. cbn [negb].
    destruct (solver_direct_default_ok e (s_M s) (s_A s) (rhs s)) as [X ->]. destruct (derived_fields _ _ _ _). do 2 eexists. split; reflexivity.
Qed.

(* ------------------------------------------------------------------ *)
(** * C54 *)
Definition reassigned (Js : list pyfun) (ob : objective) : objective := List.fold_left (fun ob J => reassign_J J ob) Js ob.
Definition C54_property : Prop :=
  forall J args ob Js, Objective J args = Ok ob -> List.length (ob_dJ (reassigned Js ob)) = List.length (ob_args (reassigned Js ob)).
Lemma reassigned_args Js : forall ob, ob_args (reassigned Js ob) = ob_args ob /\
  (Js = [] -> reassigned Js ob = ob) /\ forall d, Js <> [] -> reassigned Js ob = set_J (List.last Js d) (ob_args ob).
Proof.
  induction Js as [|J Js IH]; intro ob; [repeat split; contradiction|]. destruct (IH (reassign_J J ob)) as (A & B & D).
  split; [exact A|]. split; [discriminate|]. intros d _. change (reassigned (J :: Js) ob) with (reassigned Js (reassign_J J ob)).
  destruct Js as [|J2 Js]; [rewrite (B eq_refl); reflexivity|]. rewrite (D d) by discriminate. reflexivity.
Qed.
(** the lists agree exactly when the last function assigned has as many parameters as there are
    arguments: the setter does not check *)
Theorem C54_lists_agree_iff :
  forall J args ob Js, Objective J args = Ok ob ->
  ob_args (reassigned Js ob) = args /\ List.length (ob_grads (reassigned Js ob)) = List.length args /\
  List.length (ob_dJ (reassigned Js ob)) = pf_arity (List.last Js J) /\
  (List.length (ob_dJ (reassigned Js ob)) = List.length (ob_args (reassigned Js ob)) <-> pf_arity (List.last Js J) = List.length args).
Proof.
  intros J args ob Js H. assert (HO: ob = set_J J args /\ List.length args = pf_arity J).
  { unfold Objective in H. destruct (Nat.eqb_spec (List.length args) (pf_arity J)); [|discriminate]. injection H as <-. auto. }
  destruct HO as [-> HL]. destruct (reassigned_args Js (set_J J args)) as (A & B & D). cbn [set_J ob_args] in A.
  assert (HR: reassigned Js (set_J J args) = set_J (List.last Js J) args).
  { destruct Js as [|J2 Js]; [reflexivity|]. rewrite (D J) by discriminate. reflexivity. }
  rewrite HR. cbn [set_J ob_args ob_dJ ob_grads]. rewrite !map_length, seq_length. repeat split; auto; intro; congruence.
Qed.
Theorem C54_setter_refuted : ~ C54_property.
Proof.
  intro HP. specialize (HP (intensity 4 1) [Ez_lin] _ [intensity 4 2] eq_refl). discriminate HP.
Qed.
(** with such an objective an evaluation that gets as far as calling J raises TypeError *)
Theorem C54_mismatched_objective_raises :
  forall e o s J args, o_current o = false -> o_objective o = set_J J args -> pf_arity J <> List.length args ->
  forall st' r, compute_J e (o, s) = (st', r) -> (exists x, r = Raise x) /\ (o_current (fst st') = true -> r = Raise TypeError).
Proof.
  intros e o s J args Hc HO HA st' r H. unfold compute_J, bind, getS, lift, solve_arg_fields, needs_solve in H. rewrite Hc in H. cbn [negb] in H.
  rewrite HO in H. cbn [set_J ob_args] in H.
  assert (HL: forall s1 l, arg_fields s1 args = Ok l -> List.length l = List.length args).
  { intros s1. clear. induction args as [|a args IH]; intros l H; cbn [arg_fields] in H; [injection H as <-; reflexivity|].
    destruct (if oa_nl a then _ else _); [|discriminate]. destruct (arg_fields s1 args); [|discriminate]. injection H as <-. cbn. f_equal. apply IH. reflexivity. }
  assert (HE: forall s1 l, arg_fields s1 args = Ok l -> pf_call (ob_J (o_objective (upd_arglist l o))) (stored_args (upd_arglist l o)) = Raise TypeError).
  { intros s1 l E. apply HL in E. cbn. rewrite HO. cbn [set_J ob_J]. unfold pf_call. destruct (Nat.eqb_spec (List.length l) (pf_arity J)); [congruence|reflexivity]. }
  destruct (solve_fields e false false s) as [s1 [F|x]]; [|injection H as <- <-; cbn; split; [eauto|congruence]].
  match type of H with context [if ?b then _ else _] => destruct b end.
  - destruct (arg_fields s1 args) as [l|x] eqn:E; [|injection H as <- <-; cbn; split; [eauto|congruence]].
    cbn [fst] in H. rewrite (HE _ _ E) in H. injection H as <- <-. eauto.
  - destruct (solve_fields_nl_default e s1) as [s2 [F2|x]]; [|injection H as <- <-; cbn; split; [eauto|congruence]].
    destruct (arg_fields s2 args) as [l|x] eqn:E; [|injection H as <- <-; cbn; split; [eauto|congruence]].
    cbn [fst] in H. rewrite (HE _ _ E) in H. injection H as <- <-. eauto.
Qed.
Example C54_met : exists J args ob Js, Objective J args = Ok ob /\ List.length Js = 2 /\ pf_arity (List.last Js J) = List.length args.
Proof. exists (intensity 4 1), [Ez_lin], (set_J (intensity 4 1) [Ez_lin]), [intensity 4 2; dist_J 4 vzero]. repeat split. Qed.

(* ------------------------------------------------------------------ *)
(** * C69 *)
(** After the source has been set with the limit lim, the source is c times the old one and a
    response quadratic in the source (c^2 times the index shift computed before) stays within the
    limit exactly when the shift before was at most 40000 times the limit. *)
Theorem C69_limit_met_iff_partial :
  forall e o s lim o' s', o_max_shift o = Some lim -> (0 < lim)%R -> set_source_amplitude e (o, s) = ((o', s'), Ok tt) ->
  exists s1 dn c m, compute_index_shift e s = (s1, Ok dn) /\
    (forall k, nd_buf (s_src s') k = (nd_buf (s_src s) k * RtoC c)%C) /\
    (exists k, k < s_M s /\ dn k = m) /\ (forall k, k < s_M s -> (dn k <= m)%R) /\ (0 < m)%R /\
    ((forall k, k < s_M s -> (c ^ 2 * dn k <= lim)%R) <-> (m <= 40000 * lim)%R).
Proof.
  intros e o s lim o' s' HL Hlim H. unfold set_source_amplitude in H. cbn [push_amp o_max_shift] in H. rewrite HL in H.
  destruct (compute_index_shift e s) as [s1 [dn|x]] eqn:E; [|discriminate]. assert (HS := proj1 (index_shift_same _ _ _ _ E)).
  assert (EM: s_M s1 = s_M s) by (destruct HS as (_ & _ & _ & _ & _ & EX & EY & _); unfold s_M; rewrite EX, EY; reflexivity).
  assert (ES: s_src s1 = s_src s) by apply HS. rewrite EM, ES in H.
  set (m := rmax (s_M s) dn) in *. destruct (Req_EM_T m 0) as [Z|Z]; [discriminate|]. destruct (Rlt_dec (lim / m) 0) as [N|N]; [discriminate|].
  injection H as _ <-. set (c := (sqrt (lim / m) - 1 / 100)%R).
  assert (HM: 0 < s_M s). { destruct (s_M s) eqn:E0; [|lia]. exfalso. apply Z. unfold m. reflexivity. }
  destruct (rmax_spec (s_M s) dn HM) as [(i & Hi & Ei) HB]. fold m in Ei, HB.
  assert (Hm: (0 < m)%R).
  { destruct (Rtotal_order m 0) as [L|[L|L]]; [|contradiction|exact L]. exfalso. apply N. unfold Rdiv. rewrite <- (Rmult_0_r lim).
    apply Rmult_lt_compat_l; [exact Hlim|]. apply Rinv_lt_0_compat, L. }
  exists s1, dn, c, m. split; [reflexivity|]. split; [intro k; reflexivity|]. split; [exists i; auto|]. split; [exact HB|]. split; [exact Hm|].
  set (q := sqrt (lim / m)) in *. assert (Hq: (0 < q)%R) by (apply sqrt_lt_R0, Rdiv_lt_0_compat; lra).
  assert (Hq2: (q * q = lim / m)%R) by (apply sqrt_sqrt; left; apply Rdiv_lt_0_compat; lra).
  assert (Hlm: (q * q * m = lim)%R) by (rewrite Hq2; field; lra).
  assert (HC: (c ^ 2 * m <= lim <-> 1 / 200 <= q)%R).
  { rewrite <- Hlm. unfold c. split; intro H.
    - apply Rmult_le_reg_r in H; [|exact Hm]. nra.
    - apply Rmult_le_compat_r; [lra|]. nra. }
  split; intro H.
  - assert (Hi' := H i Hi). rewrite <- Ei in Hi'. apply HC in Hi'. rewrite <- Hlm.
    assert (H1: (1 <= 40000 * (q * q))%R) by nra. apply (Rmult_le_compat_r m) in H1; lra.
  - assert (HQ: (1 / 200 <= q)%R).
    { rewrite <- Hlm in H. assert (1 <= 40000 * (q * q))%R by (apply (Rmult_le_reg_r m); [exact Hm|lra]). nra. }
    apply HC in HQ. intros k Hk. eapply Rle_trans; [|exact HQ]. apply Rmult_le_compat_l; [apply pow2_ge_0|apply HB, Hk].
Qed.
Definition C69_property : Prop :=
  forall e o s lim o' s', solver_exact e -> o_max_shift o = Some lim -> (0 < lim)%R -> set_source_amplitude e (o, s) = ((o', s'), Ok tt) ->
  forall s1 dn c, compute_index_shift e s = (s1, Ok dn) -> (forall k, nd_buf (s_src s') k = (nd_buf (s_src s) k * RtoC c)%C) ->
  forall k, k < s_M s -> (c ^ 2 * dn k <= lim)%R.
Lemma nrm_scalar n (c : C) v : nrm n (fun k => (c * v k)%C) = (Cmod c * nrm n v)%R.
Proof.
  unfold nrm. rewrite (rsum_ext n _ (fun k => (Cmod c ^ 2 * Cnorm2 (v k))%R)) by (intros; rewrite Cnorm2_mult, Cmod2; reflexivity).
  rewrite rsum_scal, sqrt_mult_alt by apply pow2_ge_0. f_equal. replace (Cmod c ^ 2)%R with (Cmod c * Cmod c)%R by ring. apply sqrt_square, Cmod_ge_0.
Qed.
(** the uniform example with a Kerr nonlinearity that changes the permittivity from 1 to 1+1e-11 *)
Definition ex_delta : R := (1 / 10 ^ 11)%R.
Definition kerr_uniform (s0 : sim) : sim :=
  upd_nl [mkNonlin (ex_delta * (ex_omega * EPSILON_0) ^ 2 / 3) (fun _ => 1%R) false 0] (upd_src (mkNd 2 2 (fun _ => RtoC 1)) s0).
Lemma kerr_uniform_shift s0 : fam_sim "Ez" 2 2 0 0 (fun _ => 1%R) = Ok s0 ->
  exists s1 dn, compute_index_shift ex_env (kerr_uniform s0) = (s1, Ok dn) /\ s_M (kerr_uniform s0) = 4 /\
    forall k, k < 4 -> dn k = (sqrt (1 + ex_delta) - 1)%R.
Proof.
  intro H0. destruct (Simulation_fields _ _ _ _ _ _ _ H0) as (E1 & E2 & E3 & E4 & E5 & E6 & E7 & E8 & P1 & P2 & E9 & EP & _ & _).
  specialize (E9 _ _ eq_refl). specialize (EP eq_refl). cbn [nd_nx nd_ny] in *. change (Z.to_nat (Z.of_nat 0)) with 0 in E9.
  assert (HO := ex_omega_pos). assert (HO2 := ex_omega_sq). assert (PE := EPSILON_0_pos). assert (PM := MU_0_pos). assert (Hd: (0 < ex_delta)%R) by (unfold ex_delta; lra).
  assert (HW: (0 < ex_omega * EPSILON_0)%R) by (apply Rmult_lt_0_compat; lra).
  assert (HW1: (0 < ex_omega * EPSILON_0 * (1 + ex_delta))%R) by (apply Rmult_lt_0_compat; lra).
  set (s := kerr_uniform s0). assert (HM: s_M s = 2 * 2) by (unfold s_M, s; cbn; rewrite E3, E4; reflexivity).
  assert (HA: s_A s = fst (construct_A ex_omega (0, INR 2 * 1)%R (0, INR 2 * 1)%R 2 2 (cvec (fun _ => 1%R)) (0,0) PolEz 1 true)).
  { unfold fam_sim, Simulation in H0. destruct (check_inputs _ _ _ _) eqn:EC; [|discriminate]. injection H0 as <-. reflexivity. }
  (* linear solve *)
  destruct (solver_direct_default_ok ex_env (s_M s) (s_A s) (rhs s)) as [X0 HX0].
  assert (V0: forall k, k < 4 -> X0 k = (Ci / RtoC (ex_omega * EPSILON_0))%C).
  { intros k Hk. assert (HX := HX0). rewrite HM, HA in HX. change (rhs s) with (fun k : nat => (RtoC 1 * Ci * RtoC (s_omega s0))%C) in HX. rewrite E1 in HX.
    rewrite (uniform_solution ex_env ex_omega 2 2 _ _ 1 (RtoC 1) X0 ex_env_exact ltac:(lia) ltac:(lia) (dL_new 2 2 1 ltac:(lia) ltac:(lia)) ltac:(nra) ltac:(lra) HX k Hk).
    rewrite Rmult_1_r. ring. }
  assert (HL: exists sl Fl, solve_fields ex_env false false s = (sl, Ok Fl) /\ same_problem s sl /\ s_fields sl Ez = Some X0).
  { destruct (solve_fields ex_env false false s) as [sl r] eqn:EL. assert (HS := proj1 (lin_solve_same _ _ _ _ _ EL)). unfold solve_fields in EL.
    replace (Nat.eqb (nd_size (s_src s)) (s_M s)) with true in EL by (rewrite HM; reflexivity). cbn [negb] in EL. rewrite HX0 in EL.
    destruct (derived_fields _ _ _ _) as [a b]. injection EL as <- <-. do 2 eexists. split; [reflexivity|]. split; [exact HS|].
    change (s_pol s) with (s_pol s0). cbn [upd_fields s_fields]. rewrite EP. reflexivity. }
  destruct HL as (sl & Fl & HL & HS & HF).
  assert (EMl: s_M sl = 4). { destruct HS as (_ & _ & _ & _ & _ & EX & EY & _). unfold s_M. rewrite EX, EY. exact HM. }
  assert (EPl: s_pol sl = PolEz) by (transitivity (s_pol s); [apply HS|exact EP]).
  assert (Hen: forall k, k < 4 -> s_eps_nl (compute_nl X0 sl) k = ex_delta).
  { intros k Hk. unfold compute_nl. cbn [upd_nlvals s_eps_nl]. replace (s_nl sl) with (s_nl s) by (symmetry; apply HS). cbn.
    unfold kerr_eps_nl, nl_scale. cbn. rewrite (V0 k Hk).
    replace (Ci / RtoC (ex_omega * EPSILON_0))%C with (Ci * RtoC (/ (ex_omega * EPSILON_0)))%C by (rewrite RtoC_inv by lra; reflexivity).
    rewrite Cmod_mult, Cmod_R. rewrite Rabs_pos_eq by (left; apply Rinv_0_lt_compat; lra).
    replace (Cmod Ci) with 1%R by (unfold Cmod, Ci; cbn; replace (0 * (0 * 1) + 1 * (1 * 1))%R with 1%R by ring; symmetry; apply sqrt_1). field. split; lra. }
  (* nonlinear matrix *)
  set (sn := compute_nl X0 sl) in *.
  assert (Esn: s_M sn = 4 /\ s_pol sn = PolEz /\ s_eps sn = s_eps s0 /\ rhs sn = (fun k => (RtoC 1 * Ci * RtoC ex_omega)%C) /\ nd_size (s_src sn) = 4).
  { split; [exact EMl|]. split; [exact EPl|]. split; [transitivity (s_eps s); [apply HS|reflexivity]|].
    unfold rhs. change (s_src sn) with (s_src sl). change (s_omega sn) with (s_omega sl).
    replace (s_src sl) with (s_src s) by (symmetry; apply HS). replace (s_omega sl) with (s_omega s) by (symmetry; apply HS). split; [|reflexivity].
    change (s_omega s) with (s_omega s0). rewrite E1. reflexivity. }
  destruct Esn as (M1 & M2 & M3 & M4 & M5).
  set (An := spdiags (fun k => RtoC (s_omega sl ^ 2 * EPSILON_0 * s_L0 sl * s_eps_nl sn k))).
  assert (HAn: s_Anl sn = Some (4, An)). { unfold sn, compute_nl. cbn [upd_nlvals s_Anl]. rewrite EMl. reflexivity. }
  set (B := fst (construct_A ex_omega (0, INR 2 * 1)%R (0, INR 2 * 1)%R 2 2 (cvec (fun _ => (1 + ex_delta)%R)) (0,0) PolEz 1 true)).
  assert (HB: meq 4 (mplus (s_A sn) An) B).
  { assert (EAl: s_A sn = s_A s) by (change (s_A sn) with (s_A sl); apply HS). rewrite EAl, HA. unfold B.
    intros r c Hr Hc. unfold An, mplus, construct_A. cbn [fst]. unfold mplus, mscal, spdiags, mdiag, cvec.
    replace (s_omega sl) with ex_omega by (symmetry; transitivity (s_omega s); [apply HS|exact E1]).
    replace (s_L0 sl) with 1%R by (symmetry; transitivity (s_L0 s); [apply HS|exact E2]).
    destruct (Nat.eqb_spec r c) as [<-|Nrc]; [|ring]. rewrite (Hen r Hr). rewrite !RtoC_mult, !RtoC_plus. ring. }
  assert (HNB: nonsingular 4 B).
  { unfold B. change 4 with (2 * 2). apply Ez_nonsingular with (d := 1%R); try lia; try lra; [apply dL_new; lia|]. intros k Hk.
    replace (ex_omega ^ 2 * (EPSILON_0 * 1) * (MU_0 * 1) * (1 * 1) * (1 + ex_delta))%R with (ex_omega ^ 2 * (EPSILON_0 * MU_0) * (1 + ex_delta))%R by ring. rewrite HO2. lra. }
  destruct (solver_direct_default_ok ex_env 4 (mplus (s_A sn) An) (rhs sn)) as [X1 HX1].
  assert (V1: forall k, k < 4 -> X1 k = (Ci / RtoC (ex_omega * EPSILON_0 * (1 + ex_delta)))%C).
  { assert (HNA: nonsingular 4 (mplus (s_A sn) An)) by (apply (nonsingular_ext 4 B); [apply meq_sym, HB|exact HNB]).
    assert (HS1 := solver_direct_correct _ _ _ _ _ _ ex_env_exact HNA HX1). apply (solves_unique _ _ _ _ _ HNA HS1).
    apply solves_mv. intros k Hk. rewrite (mv_ext 4 _ B _ _ HB (veq_refl 4 _) k Hk). rewrite M4. unfold B. change 4 with (2 * 2).
    rewrite (uniform_row ex_omega 2 2 _ _ 1 (1 + ex_delta) _ k ltac:(lia) ltac:(lia) (dL_new 2 2 1 ltac:(lia) ltac:(lia)) ltac:(lra) Hk).
    replace (ex_omega ^ 2 * EPSILON_0 * (1 + ex_delta))%R with (ex_omega * (ex_omega * EPSILON_0 * (1 + ex_delta)))%R by ring.
    rewrite (RtoC_mult ex_omega (ex_omega * EPSILON_0 * (1 + ex_delta))). field. apply RtoC_neq0. lra. }
  assert (HSn: exists a b, solve_fields ex_env true false sn = (sn, Ok (a, b, X1))).
  { unfold solve_fields. rewrite HAn, M1, Nat.eqb_refl, M5, Nat.eqb_refl. cbn [negb]. rewrite HX1. destruct (derived_fields _ _ _ _) as [a b]. eauto. }
  destruct HSn as (a & b & HSn).
  assert (HCv: convergence 4 X1 X0 = Fin ex_delta).
  { assert (EV: veq 4 (vminus X1 X0) (fun k => (RtoC (- ex_delta) * X1 k)%C)).
    { intros k Hk. unfold vminus. rewrite V0, V1 by exact Hk. rewrite (RtoC_mult (ex_omega * EPSILON_0)), RtoC_plus, RtoC_opp.
      assert (N1: (RtoC 1 + RtoC ex_delta)%C <> RtoC 0) by (rewrite <- RtoC_plus; apply RtoC_neq0; lra).
      assert (N2: RtoC (ex_omega * EPSILON_0) <> RtoC 0) by (apply RtoC_neq0; lra). field. split; assumption. }
    unfold convergence. rewrite (nrm_ext 4 _ _ EV), nrm_scalar, Cmod_R, Rabs_Ropp, Rabs_pos_eq by lra. unfold xdiv.
    destruct (Req_EM_T (nrm 4 X1) 0) as [Z|Z].
    - exfalso. assert (Q := nrm_eq0 4 X1 Z 0 ltac:(lia)). rewrite V1 in Q by lia. apply (f_equal Im) in Q.
      replace (Ci / RtoC (ex_omega * EPSILON_0 * (1 + ex_delta)))%C with (Ci * RtoC (/ (ex_omega * EPSILON_0 * (1 + ex_delta))))%C in Q by (rewrite RtoC_inv by lra; reflexivity).
      autorewrite with reim in Q. assert (0 < / (ex_omega * EPSILON_0 * (1 + ex_delta)))%R by (apply Rinv_0_lt_compat; lra). lra.
    - f_equal. field. exact Z. }
  assert (HNl: exists s2 F2, solve_fields_nl_default ex_env sl = (s2, Ok F2) /\ s_eps s2 = s_eps s0 /\ s_eps_nl s2 = s_eps_nl sn).
  { unfold solve_fields_nl_default, solve_fields_nl, run_solver_nl.
    change (String.eqb "hybrid" "born") with false. change (String.eqb "hybrid" "newton") with false. change (String.eqb "hybrid" "LM") with false.
    change (String.eqb "hybrid" "krylov") with false. change (String.eqb "hybrid" "hybrid") with true. cbv iota.
    unfold born_solve. unfold start_field. rewrite EPl. cbn [pol_comp]. rewrite HF. cbn [born_loop]. fold sn. rewrite HSn, M1, HCv. unfold xlt.
    destruct (Rlt_dec ex_delta (1 / 10 ^ 10)) as [_|N]; [|exfalso; apply N; unfold ex_delta; lra].
    unfold conv_array. cbn [List.length Nat.sub List.repeat List.app]. unfold last_conv. cbn [rev List.app]. unfold xgt.
    destruct (Rlt_dec (1 / 10 ^ 10) 0) as [N|_]; [exfalso; lra|]. do 2 eexists. split; [reflexivity|]. split; [exact M3|reflexivity]. }
  destruct HNl as (s2 & F2 & HNl & Q1 & Q2).
  unfold compute_index_shift, bind, getS, ret. rewrite HL, HNl. do 2 eexists. split; [reflexivity|]. split; [exact HM|].
  intros k Hk. cbv beta. rewrite Q1, Q2, (Hen k Hk), E5. cbn [nd_buf]. unfold index_shift_at. rewrite sqrt_1.
  apply Rabs_pos_eq. assert (1 <= sqrt (1 + ex_delta))%R by (rewrite <- sqrt_1 at 1; apply sqrt_le_1_alt; lra). lra.
Qed.
Definition ex_opt_limit (lim : R) : opt :=
  mkOpt (set_J (intensity 4 1) [Ez_lin]) (fun _ => 1%R) rId (1 / 2) 10 5 "linear" "hybrid" (Some lim) [] [] false None.
Lemma kerr_uniform_amplitude s0 lim : fam_sim "Ez" 2 2 0 0 (fun _ => 1%R) = Ok s0 -> (0 < lim)%R ->
  exists o' s', set_source_amplitude ex_env (ex_opt_limit lim, kerr_uniform s0) = ((o', s'), Ok tt).
Proof.
  intros H0 Hlim. destruct (kerr_uniform_shift s0 H0) as (s1 & dn & HC & HM & HD). unfold set_source_amplitude. cbn [push_amp o_max_shift ex_opt_limit]. rewrite HC.
  assert (EM: s_M s1 = 4). { apply index_shift_same in HC as [HS _]. destruct HS as (_ & _ & _ & _ & _ & EX & EY & _). unfold s_M. rewrite EX, EY. exact HM. }
  rewrite EM. destruct (rmax_spec 4 dn ltac:(lia)) as [(i & Hi & Ei) _]. rewrite Ei, (HD i Hi).
  assert (HP: (0 < sqrt (1 + ex_delta) - 1)%R). { assert (1 < sqrt (1 + ex_delta))%R; [|lra]. rewrite <- sqrt_1 at 1. apply sqrt_lt_1_alt. unfold ex_delta. lra. }
  destruct (Req_EM_T _ _); [lra|]. destruct (Rlt_dec _ _) as [N|_]; [|eauto]. exfalso. apply Rlt_not_le in N. apply N. left. apply Rdiv_lt_0_compat; assumption.
Qed.
(** refuted: a limit far below the present shift (r = lim/shift < 2.5e-5) is not reached, since the
    factor sqrt(r) - 0.01 is then negative and larger in size than sqrt(r) *)
Theorem C69_small_limit_refuted : ~ C69_property.
Proof.
  intro HP. destruct (fam_sim_ok "Ez" 2 2 0 0 (fun _ => 1%R) (or_introl eq_refl)) as [s0 H0].
  destruct (kerr_uniform_shift s0 H0) as (s1 & dn & HC & HM & HD). set (m := (sqrt (1 + ex_delta) - 1)%R) in *.
  assert (Hm: (0 < m)%R). { assert (1 < sqrt (1 + ex_delta))%R; [|unfold m; lra]. rewrite <- sqrt_1 at 1. apply sqrt_lt_1_alt. unfold ex_delta. lra. }
  assert (Hlim: (0 < m / 50000)%R) by lra.
  destruct (kerr_uniform_amplitude s0 (m / 50000) H0 Hlim) as (o' & s' & HA).
  destruct (C69_limit_met_iff_partial ex_env (ex_opt_limit (m / 50000)) _ _ o' s' eq_refl Hlim HA) as (s1' & dn' & c & m' & HC' & HS & (k & Hk & Ek) & _ & _ & HI).
  rewrite HC in HC'. injection HC' as <- <-. rewrite HM in *. rewrite (HD k Hk) in Ek. subst m'.
  assert (Q := HP ex_env (ex_opt_limit (m / 50000)) _ _ o' s' ex_env_exact eq_refl Hlim HA _ _ _ HC HS). rewrite HM in Q. apply HI in Q. lra.
Qed.
(** and limits near the present shift are met *)
Example C69_met : exists o s lim o' s', o_max_shift o = Some lim /\ (0 < lim)%R /\ set_source_amplitude ex_env (o, s) = ((o', s'), Ok tt) /\
  exists s1 dn, compute_index_shift ex_env s = (s1, Ok dn) /\ s_M s = 4 /\ forall k, k < 4 -> dn k = (2 * lim)%R.
Proof.
  destruct (fam_sim_ok "Ez" 2 2 0 0 (fun _ => 1%R) (or_introl eq_refl)) as [s0 H0].
  destruct (kerr_uniform_shift s0 H0) as (s1 & dn & HC & HM & HD). set (m := (sqrt (1 + ex_delta) - 1)%R) in *.
  assert (Hm: (0 < m)%R). { assert (1 < sqrt (1 + ex_delta))%R; [|unfold m; lra]. rewrite <- sqrt_1 at 1. apply sqrt_lt_1_alt. unfold ex_delta. lra. }
  destruct (kerr_uniform_amplitude s0 (m / 2) H0 ltac:(lra)) as (o' & s' & HA).
  exists (ex_opt_limit (m / 2)), (kerr_uniform s0), (m / 2)%R, o', s'. split; [reflexivity|]. split; [lra|]. split; [exact HA|]. do 2 eexists. split; [exact HC|]. split; [exact HM|]. intros k Hk. rewrite (HD k Hk). field.
Qed.

(* ------------------------------------------------------------------ *)
(** * C71 *)
Definition set_options (fs ns : string) (o : opt) : opt :=
  mkOpt (o_objective o) (o_design o) (o_W o) (o_eta o) (o_beta o) (o_eps_m o) fs ns
    (o_max_shift o) (o_src_amps o) (o_objs o) (o_current o) (o_arglist o).
(** the operation gives the same result, the same simulation and the same other attributes whatever
    the options field_start and nl_solver are *)
Definition ignores_options {A} (op : St (opt * sim) A) : Prop :=
  forall fs ns o s o' s' r, op (o, s) = ((o', s'), r) -> op (set_options fs ns o, s) = ((set_options fs ns o', s'), r).
Lemma ig_bind {A B} (m : St (opt * sim) A) (f : A -> St (opt * sim) B) :
  ignores_options m -> (forall a, ignores_options (f a)) -> ignores_options (bind m f).
Proof.
  intros Hm Hf fs ns o s o' s' r H. unfold bind in *. destruct (m (o, s)) as [[o1 s1] [a|x]] eqn:E; rewrite (Hm fs ns _ _ _ _ _ E).
  - apply (Hf a). exact H.
  - injection H as <- <- <-. reflexivity.
Qed.
Lemma ig_ret {A} (a : A) : ignores_options (ret a).
Proof. intros fs ns o s o' s' r H. injection H as <- <- <-. reflexivity. Qed.
Lemma ig_solve_args e : ignores_options (solve_arg_fields e).
Proof.
  intros fs ns o s o' s' r H. unfold solve_arg_fields in *. change (needs_solve (set_options fs ns o)) with (needs_solve o).
  change (o_objective (set_options fs ns o)) with (o_objective o).
  destruct (needs_solve o) as [[|]|]; [|injection H as <- <- <-; reflexivity..].
  destruct (solve_fields e false false s) as [s1 [F|x]]; [|injection H as <- <- <-; reflexivity].
  destruct (is_linear _).
  - destruct (arg_fields s1 _); injection H as <- <- <-; reflexivity.
  - destruct (solve_fields_nl_default e s1) as [s2 [F2|x]]; [|injection H as <- <- <-; reflexivity].
    destruct (arg_fields s2 _); injection H as <- <- <-; reflexivity.
Qed.
Lemma ig_compute_J e : ignores_options (compute_J e).
Proof.
  unfold compute_J. apply ig_bind; [apply ig_solve_args|]. intros _ fs ns o s o' s' r H. unfold bind, getS, lift in *. cbn [fst] in *.
  change (pf_call (ob_J (o_objective (set_options fs ns o))) (stored_args (set_options fs ns o))) with (pf_call (ob_J (o_objective o)) (stored_args o)).
  injection H as <- <- <-. reflexivity.
Qed.
Lemma ig_grad_loop e fs ns o l : forall acc s, grad_loop e (set_options fs ns o) l acc s = grad_loop e o l acc s.
Proof.
  induction l as [|[[f d] a] l IH]; intros acc s; [reflexivity|]. cbn [grad_loop].
  replace (run_grad e f (set_options fs ns o) d) with (run_grad e f o d) by (destruct f; reflexivity).
  change (stored_args (set_options fs ns o)) with (stored_args o). destruct (run_grad e f o d _ _ s) as [s1 [g|x]]; [apply IH|reflexivity].
Qed.
Lemma ig_compute_dJ e : ignores_options (compute_dJ e).
Proof.
  intros fs ns o s o' s' r H. unfold compute_dJ in *. destruct (solve_arg_fields e (o, s)) as [[o1 s1] [u|x]] eqn:E; rewrite (ig_solve_args e fs ns _ _ _ _ _ E).
  - change (o_objective (set_options fs ns o1)) with (o_objective o1). rewrite ig_grad_loop. destruct (grad_loop e o1 _ _ s1). injection H as <- <- <-. reflexivity.
  - injection H as <- <- <-. reflexivity.
Qed.
Lemma ig_set_amp e : ignores_options (set_source_amplitude e).
Proof.
  intros fs ns o s o' s' r H. unfold set_source_amplitude in *. cbn [push_amp o_max_shift set_options] in *. destruct (o_max_shift o) as [lim|].
  - destruct (compute_index_shift e s) as [s1 [dn|x]]; [|injection H as <- <- <-; reflexivity].
    destruct (Req_EM_T _ _); [injection H as <- <- <-; reflexivity|]. destruct (Rlt_dec _ _); injection H as <- <- <-; reflexivity.
  - injection H as <- <- <-. reflexivity.
Qed.
Lemma ig_update_rho g step : ignores_options (update_rho g step).
Proof. intros fs ns o s o' s' r H. unfold update_rho in *. destruct (s_rho s); injection H as <- <- <-; reflexivity. Qed.
Lemma ig_set_region x : ignores_options (set_design_region x).
Proof.
  intros fs ns o s o' s' r H. unfold set_design_region in *. cbn [set_options o_design] in *. destruct (s_rho s); [injection H as <- <- <-; reflexivity..|].
  destruct (xgt _ _); injection H as <- <- <-; reflexivity.
Qed.
Lemma ig_push J : ignores_options (modS (fun st : opt * sim => (push_obj J (fst st), snd st))).
Proof. intros fs ns o s o' s' r H. injection H as <- <- <-. reflexivity. Qed.
Lemma ig_eval e : ignores_options (eval_step e).
Proof.
  unfold eval_step. apply ig_bind; [apply ig_compute_J|]. intro J. apply ig_bind; [apply ig_push|]. intros _. apply ig_bind; [apply ig_set_amp|]. intros _. apply ig_compute_dJ.
Qed.
Lemma ig_GD e step n : ignores_options (run_GD e step n).
Proof.
  induction n as [|n IH]; [apply ig_ret|]. intros fs ns o s o' s' r H. rewrite run_GD_step in *. revert H. apply ig_bind; [apply ig_eval|].
  intro g. apply ig_bind; [apply ig_update_rho|]. intros _. exact IH.
Qed.
Lemma ig_ADAM e step b1 b2 n : forall i m v, ignores_options (run_ADAM e step b1 b2 n i m v).
Proof.
  induction n as [|n IH]; intros i m v; [apply ig_ret|]. intros fs ns o s o' s' r H. rewrite run_ADAM_step in *. revert H. apply ig_bind; [apply ig_eval|].
  intro g. apply ig_bind; [apply ig_update_rho|]. intros _. apply IH.
Qed.
Lemma ig_serve e c : ignores_options (lb_serve e c).
Proof.
  destruct c as [x|x|x]; cbn [lb_serve].
  - apply ig_bind; [apply ig_set_region|]. intros _. apply ig_bind; [apply ig_compute_J|]. intro J. apply ig_ret.
  - apply ig_bind; [apply ig_set_region|]. intros _. apply ig_bind; [apply ig_compute_dJ|]. intros g fs ns o s o' s' r H. injection H as <- <- <-. reflexivity.
  - apply ig_bind; [apply ig_compute_J|]. intro J. apply ig_bind; [apply ig_push|]. intros _. apply ig_bind; [apply ig_set_region|]. intros _.
    apply ig_bind; [apply ig_set_amp|]. intros _. apply ig_ret.
Qed.
Lemma ig_serve_all e l : ignores_options (lb_serve_all e l).
Proof.
  induction l as [|c l IH]; cbn [lb_serve_all]; [apply ig_ret|]. apply ig_bind; [apply ig_serve|]. intro a. apply ig_bind; [exact IH|]. intro b. apply ig_ret.
Qed.
Lemma ig_scan_loop e fl : ignores_options (scan_loop e fl).
Proof.
  induction fl as [|f t IH]; [apply ig_ret|]. intros fs ns o s o' s' r H. cbn [scan_loop] in *.
  destruct (compute_J e (upd_current false o, _)) as [[o1 s1] [J|x]] eqn:E; apply (ig_compute_J e fs ns) in E;
  change (set_options fs ns (upd_current false o)) with (upd_current false (set_options fs ns o)) in E; rewrite E.
  - destruct (scan_loop e t (o1, s)) as [[o2 s2] [l|x]] eqn:E2; rewrite (IH fs ns _ _ _ _ _ E2); injection H as <- <- <-; reflexivity.
  - injection H as <- <- <-. reflexivity.
Qed.
(** field_start and nl_solver have no effect on evaluating the objective or its gradient, on any
    run, or on a frequency scan *)
Theorem C71_options_ignored :
  forall e, ignores_options (compute_J e) /\ ignores_options (compute_dJ e) /\
  (forall m n step b1 b2, ignores_options (run e m n step b1 b2)) /\ (forall Nf df, ignores_options (scan_frequency e Nf df)).
Proof.
  intro e. split; [apply ig_compute_J|]. split; [apply ig_compute_dJ|]. split.
  - intros m n step b1 b2 fs ns o s o' s' r H. unfold run in *. cbn [fst snd] in *. destruct (s_rho s) eqn:ER; [injection H as <- <- <-; reflexivity..|].
    change (upd_current false (set_options fs ns o)) with (set_options fs ns (upd_current false o)). destruct m as [calls x| | |].
    + unfold run_LBFGS in *. cbn [snd] in *. rewrite ER in *. revert H. apply ig_bind; [apply ig_serve_all|]. intros _. apply ig_set_region.
    + apply (ig_GD e step n), H.
    + apply (ig_ADAM e step b1 b2 n), H.
    + injection H as <- <- <-. reflexivity.
  - intros Nf df fs ns o s o' s' r H. unfold scan_frequency in *. cbn [snd] in *.
    destruct (scan_loop e _ (o, s)) as [[o1 s1] [l|x]] eqn:E; rewrite (ig_scan_loop e _ fs ns _ _ _ _ _ E); [destruct Nf as [|[|Nf]]|]; injection H as <- <- <-; reflexivity.
Qed.
(** averaging has no effect on solve_fields_nl, for any solver *)
Theorem C71_averaging_ignored :
  forall e Estart solver thr n s av av', solve_fields_nl e av Estart solver thr n s = solve_fields_nl e av' Estart solver thr n s.
Proof.
  intros e Estart solver thr n s av av'. unfold solve_fields_nl, run_solver_nl.
  repeat match goal with |- context [String.eqb solver ?x] => destruct (String.eqb solver x); try reflexivity end.
Qed.
(** the property, in its weakest form: some option changes some outcome *)
Definition C71_property : Prop :=
  (exists e m n step b1 b2 o s fs, let out o := (snd (fst (run e m n step b1 b2 (o, s))), snd (run e m n step b1 b2 (o, s)), o_objs (fst (fst (run e m n step b1 b2 (o, s))))) in
     out (set_options fs (o_nl_solver o) o) <> out o) \/
  (exists e m n step b1 b2 o s ns, let out o := (snd (fst (run e m n step b1 b2 (o, s))), snd (run e m n step b1 b2 (o, s)), o_objs (fst (fst (run e m n step b1 b2 (o, s))))) in
     out (set_options (o_field_start o) ns o) <> out o) \/
  (exists e Estart solver thr n s, solve_fields_nl e true Estart solver thr n s <> solve_fields_nl e false Estart solver thr n s).
Theorem C71_run_same_for_all_options :
  (forall e m n step b1 b2 o s fs ns, let out o := (snd (fst (run e m n step b1 b2 (o, s))), snd (run e m n step b1 b2 (o, s)), o_objs (fst (fst (run e m n step b1 b2 (o, s))))) in
     out (set_options fs ns o) = out o).
Proof.
  intros e m n step b1 b2 o s fs ns. cbv zeta beta. destruct (run e m n step b1 b2 (o, s)) as [[o' s'] r] eqn:E.
  apply (proj1 (proj2 (proj2 (C71_options_ignored e))) m n step b1 b2 fs ns) in E. rewrite E. reflexivity.
Qed.
Theorem C71_options_refuted : ~ C71_property.
Proof.
  intros [(e & m & n & step & b1 & b2 & o & s & fs & H)|[(e & m & n & step & b1 & b2 & o & s & ns & H)|(e & Es & sv & thr & n & s & H)]].
  - apply H. apply (C71_run_same_for_all_options e m n step b1 b2 o s).
  - apply H. apply (C71_run_same_for_all_options e m n step b1 b2 o s).
  - apply H, C71_averaging_ignored.
Qed.
