(** Theorems about recorded objective values, caching and the drivers of optimization.py. *)
From Coq Require Import Reals Lra Lia List ZArith Arith Bool String FunctionalExtensionality.
From Coquelicot Require Import Coquelicot.
From Verif Require Import Base Linear MCore MSim Spec PCore PSim PEx PropsCore PropsNl PropsIter MFilter PFilter PTanh PropsFilter MOpt PDiff PGrad PExOpt PropsGrad PropsGradNl PropsGradHz PropsGradTab POpt PropsOpt.
Import ListNotations.
Local Open Scope nat_scope.

(** the objective of the optimization [o], evaluated on freshly solved fields of [s] *)
Definition fresh_J (e : env) (o : opt) (s : sim) : res R := objective_value e (ob_J (o_objective o)) (ob_args (o_objective o)) s.
Lemma fresh_cfg e o o' s : cfg o o' -> fresh_J e o' s = fresh_J e o s.
Proof. intros (C1 & _). unfold fresh_J. rewrite C1. reflexivity. Qed.

(* ------------------------------------------------------------------ *)
(** * C43 *)
(** [s'] is [s] after one design step: the density moved along some direction inside the
    design region and clipped, the permittivity recomputed, possibly another source *)
Definition next_design (o : opt) (step : R) (s s' : sim) : Prop :=
  exists rho dir src, s_rho s = Val rho /\
    same_problem (with_density o (upd_src src s) (fun k => clip01 (rho k + o_design o k * step * dir k)%R)) s'.
(** the values recorded along a sequence of designs are the objectives of these designs *)
Inductive recorded (e : env) (o : opt) (step : R) : sim -> list R -> sim -> Prop :=
| rec_nil s : recorded e o step s [] s
| rec_cons s v s1 l s' : fresh_J e o s = Ok v -> next_design o step s s1 -> recorded e o step s1 l s' -> recorded e o step s (v :: l) s'.

Lemma with_density_same o s s' f : same_problem s s' -> same_problem (with_density o s f) (with_density o s' f).
Proof.
  intros (E1 & E2 & E3 & E4 & E5 & E6 & E7 & E8 & E9 & E10 & E11 & E12 & E13 & E14 & E15 & E16 & E17).
  assert (EO: opt_eps o (upd_rho (Val f) s') f = opt_eps o (upd_rho (Val f) s) f).
  { unfold opt_eps. change (s_Nx (upd_rho (Val f) s')) with (s_Nx s'). change (s_Ny (upd_rho (Val f) s')) with (s_Ny s').
    change (s_M (upd_rho (Val f) s')) with (s_M s'). unfold s_M. rewrite E6, E7. reflexivity. }
  unfold same_problem, with_density in *. cbn [set_eps s_L0 s_omega s_NPML s_pol s_dl s_Nx s_Ny s_src s_xrange s_yrange s_eps s_A s_derivs s_modes s_nl s_rho s_W_in upd_rho].
  change (opt_eps o s' f) with (opt_eps o (upd_rho (Val f) s') f). change (opt_eps o s f) with (opt_eps o (upd_rho (Val f) s) f).
  rewrite EO, E1, E2, E3, E4, E5, E8, E9, E10, E14, E15, E17. repeat split; reflexivity.
Qed.
Lemma with_density_cfg o o' s f : cfg o o' -> with_density o' s f = with_density o s f.
Proof. intros (_ & _ & C3 & C4 & C5 & C6 & _). unfold with_density, opt_eps. rewrite C3, C4, C5, C6. reflexivity. Qed.
Lemma compute_J_fresh' e o s o' s' r : o_current o = false -> compute_J e (o, s) = ((o', s'), r) -> fresh_J e o s = r.
Proof. intros Hc H. unfold fresh_J. rewrite <- (compute_J_fresh e o s Hc), H. reflexivity. Qed.
Lemma eval_step_objs e o s o' s' r : o_current o = false -> eval_step e (o, s) = ((o', s'), r) ->
  (o_objs o' = o_objs o /\ exists x, r = Raise x) \/ (exists v, fresh_J e o s = Ok v /\ o_objs o' = (o_objs o ++ [v])%list).
Proof.
  intros Hc H. unfold eval_step, bind, modS in H. destruct (compute_J e (o, s)) as [[o1 s1] [v|x]] eqn:E1.
  2: { injection H as <- <- <-. left. apply compute_J_frame in E1 as (_ & _ & -> & _). eauto. }
  right. exists v. split; [eapply compute_J_fresh'; eassumption|]. apply compute_J_frame in E1 as (_ & _ & E1 & _). cbn [fst snd] in H.
  destruct (set_source_amplitude e (push_obj v o1, s1)) as [[o2 s2] [[]|x]] eqn:E2; apply set_amp_frame in E2 as (_ & _ & E2 & _); cbn [push_obj o_objs] in E2; rewrite E1 in E2.
  - apply compute_dJ_frame in H as (_ & _ & H & _). congruence.
  - injection H as <- <- <-. exact E2.
Qed.
Lemma update_next o s g st o1 s1 o' s' : cfg o o1 -> struct s s1 -> update_rho g st (o1, s1) = ((o', s'), Ok tt) -> next_design o st s s'.
Proof.
  intros C HS H. apply update_rho_spec in H as [(_ & rho & Hr & H)|((x & H) & _)]; [|discriminate]. injection H as -> ->.
  rewrite (with_density_cfg o o1) by exact C. destruct C as (_ & C2 & _). rewrite C2.
  destruct (struct_facts _ _ HS) as (F1 & _). destruct HS as [[v HS] _].
  exists rho, g, v. split; [congruence|]. apply with_density_same, HS.
Qed.
Lemma loops_recorded e step :
  (forall n o s o' s' r, o_current o = false -> run_GD e step n (o, s) = ((o', s'), r) ->
     exists l s1 tail, o_objs o' = (o_objs o ++ l ++ tail)%list /\ recorded e o step s l s1 /\
       (tail = [] \/ exists v, tail = [v] /\ fresh_J e o s1 = Ok v) /\ (r = Ok tt -> List.length l = n /\ tail = [] /\ s1 = s')) /\
  (forall b1 b2 n i m v o s o' s' r, o_current o = false -> run_ADAM e step b1 b2 n i m v (o, s) = ((o', s'), r) ->
     exists l s1 tail, o_objs o' = (o_objs o ++ l ++ tail)%list /\ recorded e o step s l s1 /\
       (tail = [] \/ exists v, tail = [v] /\ fresh_J e o s1 = Ok v) /\ (r = Ok tt -> List.length l = n /\ tail = [] /\ s1 = s')).
Proof.
  assert (HC: forall o o' s l s', cfg o o' -> recorded e o' step s l s' -> recorded e o step s l s').
  { intros o o' s l s' C H. induction H as [|s v s1 l s' Hv (rho & dir & src & Hr & Hn) _ IH]; [constructor|].
    econstructor; [rewrite <- Hv; symmetry; apply fresh_cfg, C| |exact IH]. exists rho, dir, src. split; [exact Hr|].
    rewrite (with_density_cfg o o') in Hn by exact C. destruct C as (_ & C2 & _). rewrite C2 in Hn. exact Hn. }
  assert (HS: forall (n : nat) o s (k : rvec -> St (opt * sim) unit) (g : rvec -> rvec) o' s' r,
     (forall x o s o' s' r, o_current o = false -> k x (o, s) = ((o', s'), r) ->
       exists l s1 tail, o_objs o' = (o_objs o ++ l ++ tail)%list /\ recorded e o step s l s1 /\
         (tail = [] \/ exists v, tail = [v] /\ fresh_J e o s1 = Ok v) /\ (r = Ok tt -> List.length l = n /\ tail = [] /\ s1 = s')) ->
     o_current o = false ->
     bind (eval_step e) (fun x => update_rho (g x) step ;;; k x) (o, s) = ((o', s'), r) ->
     exists l s1 tail, o_objs o' = (o_objs o ++ l ++ tail)%list /\ recorded e o step s l s1 /\
       (tail = [] \/ exists v, tail = [v] /\ fresh_J e o s1 = Ok v) /\ (r = Ok tt -> List.length l = S n /\ tail = [] /\ s1 = s')).
  { intros n o s k g o' s' r Hk Hc H. unfold bind in H.
    destruct (eval_step e (o, s)) as [[o1 s1] [x|x]] eqn:E1; assert (F1 := eval_step_frame _ _ _ _ _ _ E1); assert (O1 := eval_step_objs _ _ _ _ _ _ Hc E1).
    2: { injection H as <- <- <-. destruct O1 as [[O1 _]|(v & Hv & O1)].
         - exists [], s, []. rewrite O1, app_nil_r. split; [reflexivity|]. split; [constructor|]. split; [auto|discriminate].
         - exists [], s, [v]. split; [exact O1|]. split; [constructor|]. split; [eauto|discriminate]. }
    destruct O1 as [[_ [y O1]]|(v & Hv & O1)]; [discriminate|].
    destruct (update_rho (g x) step (o1, s1)) as [[o2 s2] [[]|y]] eqn:E2.
    - assert (HN := update_next o s (g x) step o1 s1 o2 s2 (proj1 F1) (proj2 F1) E2).
      assert (HV := update_rho_valid _ _ _ _ _ _ E2). destruct HV as (_ & _ & C2 & Hc2).
      assert (O2: o_objs o2 = o_objs o1). { apply update_rho_spec in E2 as [(_ & rho & _ & E2)|(_ & E2)]; injection E2 as -> ->; reflexivity. }
      destruct (Hk _ _ _ _ _ _ Hc2 H) as (l & s3 & tail & K1 & K2 & K3 & K4).
      assert (C: cfg o o2) by (eapply cfg_trans; [apply F1|exact C2]).
      exists (v :: l), s3, tail. split; [rewrite K1, O2, O1, <- !app_assoc; reflexivity|].
      split; [econstructor; [exact Hv|exact HN|eapply HC; [exact C|exact K2]]|].
      split; [destruct K3 as [K3|(w & K3 & K5)]; [auto|]; right; exists w; split; [exact K3|]; rewrite <- K5; symmetry; apply fresh_cfg, C|].
      intro Hr. destruct (K4 Hr) as (K6 & K7 & K8). cbn. auto.
    - assert (O2: o_objs o2 = o_objs o1). { apply update_rho_spec in E2 as [(_ & rho & _ & E2)|(_ & E2)]; injection E2 as -> ->; reflexivity. }
      injection H as <- <- <-. exists [], s, [v]. split; [rewrite O2; exact O1|]. split; [constructor|]. split; [eauto|discriminate]. }
  split.
  - induction n as [|n IH]; intros o s o' s' r Hc H.
    + injection H as <- <- <-. exists [], s, []. rewrite app_nil_r. split; [reflexivity|]. split; [constructor|]. auto.
    + rewrite run_GD_step in H. apply (HS n o s (fun _ => run_GD e step n) (fun g => g) o' s' r (fun _ => IH) Hc H).
  - intros b1 b2. induction n as [|n IH]; intros i m v o s o' s' r Hc H.
    + injection H as <- <- <-. exists [], s, []. rewrite app_nil_r. split; [reflexivity|]. split; [constructor|]. auto.
    + rewrite run_ADAM_step in H.
      apply (HS n o s (fun g => run_ADAM e step b1 b2 n (S i) (fun k => adam_m b1 (m k) (g k)) (fun k => adam_v b2 (v k) (g k)))
        (fun g k => adam_step b1 b2 (adam_m b1 (m k) (g k)) (adam_v b2 (v k) (g k)) i) o' s' r); [|exact Hc|exact H].
      intros x. apply IH.
Qed.
(** Every value recorded by GD or ADAM is the objective of the design at that step, whatever
    was cached before the run; when the run raises, the values recorded so far are. *)
Theorem C43_recorded_values_are_fresh :
  forall e m n step b1 b2 o s o' s' r, m = MGD \/ m = MADAM ->
  run e m n step b1 b2 (o, s) = ((o', s'), r) ->
  exists l s1 tail, o_objs o' = (o_objs o ++ l ++ tail)%list /\ recorded e o step s l s1 /\
    (tail = [] \/ exists v, tail = [v] /\ fresh_J e o s1 = Ok v) /\
    (r = Ok tt -> List.length l = n /\ tail = [] /\ s1 = s').
Proof.
  intros e m n step b1 b2 o s o' s' r Hm H. unfold run in H. cbn [fst snd] in H.
  destruct (s_rho s) as [| |rho].
  1-2: injection H as <- <- <-; exists [], s, []; rewrite app_nil_r; (split; [reflexivity|]); (split; [constructor|]); (split; [auto|discriminate]).
  assert (HX: forall l s1, recorded e (upd_current false o) step s l s1 -> recorded e o step s l s1).
  { intros l s1 HR. clear - HR. remember (upd_current false o) as o1 eqn:Eo. induction HR as [|s v s1 l s2 Hv Hn _ IH]; [constructor|]. subst o1.
    econstructor; [exact Hv|exact Hn|auto]. }
  destruct Hm as [-> | ->].
  - apply (proj1 (loops_recorded e step)) in H; [|reflexivity]. destruct H as (l & s1 & tail & H1 & H2 & H3). exists l, s1, tail. auto.
  - apply (proj2 (loops_recorded e step)) in H; [|reflexivity]. destruct H as (l & s1 & tail & H1 & H2 & H3). exists l, s1, tail. auto.
Qed.
(** What a fresh value is: stored fields and work arrays of the simulation do not matter ... *)
Theorem C43_fresh_value_ignores_stored_fields :
  forall e o s s', same_problem s s' -> tidy s -> tidy s' -> fresh_J e o s' = fresh_J e o s.
Proof. intros. apply objective_value_tidy; assumption. Qed.
(** ... and for linear objectives of Ez polarization it is J at the solution of Maxwell's equations *)
Theorem C43_fresh_value_linear :
  forall e o s J args, lin_ready J args o s -> solver_exact e -> nonsingular (s_M s) (s_A s) ->
  exists X, solves (s_M s) (s_A s) X (rhs s) /\ fresh_J e o s = Ok (pf_val J (List.map (fun a => field_map s (oa_comp a) X) args)).
Proof.
  intros e o s J args (H1 & H2 & _ & H4 & H5 & H6 & _) He HN. exists (lin_solution e s). split.
  - unfold lin_solution. destruct (solver_direct_default_ok e (s_M s) (s_A s) (rhs s)) as [X HX]. rewrite HX. eapply solver_direct_correct; eassumption.
  - assert (HJ := compute_J_lin e (upd_current false o) s J args eq_refl H4 H1 H2 H5 H6).
    apply compute_J_fresh' in HJ; [exact HJ|reflexivity].
Qed.
Example C43_met :
  exists s0 o, fam_sim "Ez" 5 4 1 1 (fun _ => 1%R) = Ok s0 /\ let s := ex_run_sim o s0 in
  lin_ready (intensity 20 1) [Ez_lin] o s /\ nonsingular (s_M s) (s_A s) /\ tidy s /\
  forall e m n step b1 b2, m = MGD \/ m = MADAM -> exists o' s', run e m n step b1 b2 (o, s) = ((o', s'), Ok tt).
Proof.
  destruct run_example as (s0 & ob & o & H0 & _ & _ & HR & HV & HC & HM & HN). exists s0, o. split; [exact H0|]. split; [exact HR|]. split; [rewrite HM; exact HN|].
  split; [apply tidy_set_eps|].
  intros e m n step b1 b2 Hm. destruct (run_succeeds e m n step b1 b2 _ _ _ _ Hm HR) as (o' & s' & H & _). eauto.
Qed.


(* ------------------------------------------------------------------ *)
(** * C44 *)
(** a new optimization has nothing cached *)
Lemma new_opt_flag ob s design eps_m Rr eta beta fs ns ms o : Optimization ob s design eps_m Rr eta beta fs ns ms = Ok o -> o_current o = false.
Proof.
  unfold Optimization. destruct Rr; [|intro H; injection H as <-; reflexivity].
  destruct (get_W _ _ _ _ _); [|discriminate]. intro H; injection H as <-; reflexivity.
Qed.
(** compute_J returns the objective of the simulation passed whenever nothing is cached, i.e.
    on a new optimization and after every density update, design vector or source change *)
Theorem C44_uncached_partial :
  forall e o s, o_current o = false -> snd (compute_J e (o, s)) = fresh_J e o s.
Proof. intros. apply compute_J_fresh. assumption. Qed.
Theorem C44_when_uncached :
  (forall ob s design eps_m Rr eta beta fs ns ms o, Optimization ob s design eps_m Rr eta beta fs ns ms = Ok o -> o_current o = false) /\
  (forall g st o s o' s', update_rho g st (o, s) = ((o', s'), Ok tt) -> o_current o' = false) /\
  (forall x o s o' s', set_design_region x (o, s) = ((o', s'), Ok tt) -> o_current o' = false) /\
  (forall e o s o' s', set_source_amplitude e (o, s) = ((o', s'), Ok tt) -> o_current o' = false).
Proof.
  split; [exact new_opt_flag|]. split; [|split].
  - intros g st o s o' s' H. apply update_rho_valid in H. apply H.
  - intros x o s o' s' H. apply set_region_spec in H as [(_ & rho & _ & [H|H])|((y & H) & _)]; [injection H as -> ->; reflexivity..|discriminate].
  - intros e o s o' s' H. apply set_amp_frame in H as (_ & _ & _ & _ & H & _). auto.
Qed.
Lemma arg_fields_length s l : forall Fs, arg_fields s l = Ok Fs -> List.length Fs = List.length l.
Proof.
  induction l as [|a l IH]; intros Fs H; cbn [arg_fields] in H; [injection H as <-; reflexivity|].
  destruct (if oa_nl a then _ else _); [|discriminate]. destruct (arg_fields s l) as [Gs|]; [|discriminate]. injection H as <-. cbn. f_equal. auto.
Qed.
(** with an objective of at least one argument, a value stays cached *)
Definition cached (o : opt) (v : R) : Prop :=
  o_current o = true /\ exists F Fs, o_arglist o = Some (F :: Fs) /\ pf_call (ob_J (o_objective o)) (F :: Fs) = Ok v.
Lemma compute_J_caches e o s o' s' v : ob_args (o_objective o) <> [] -> compute_J e (o, s) = ((o', s'), Ok v) -> cached o' v.
Proof.
  intros HA H. unfold compute_J, bind, getS, lift in H. destruct (solve_arg_fields e (o, s)) as [[o1 s1] [[]|x]] eqn:E; [|discriminate].
  cbn [fst] in H. injection H as <- <- H. unfold solve_arg_fields in E.
  assert (HN: needs_solve o = Ok false -> o1 = o -> cached o1 v).
  { intros HN ->. unfold needs_solve in HN. destruct (o_current o) eqn:Ec; [|discriminate]. cbn [negb] in HN.
    destruct (o_arglist o) as [[|F Fs]|] eqn:Ea; try discriminate. split; [exact Ec|]. exists F, Fs. split; [exact Ea|].
    unfold stored_args in H. rewrite Ea in H. exact H. }
  assert (HL: forall l s3, arg_fields s3 (ob_args (o_objective o)) = Ok l -> o1 = upd_arglist l o -> cached o1 v).
  { intros l s3 HL ->. apply arg_fields_length in HL. destruct l as [|F Fs]; [destruct (ob_args (o_objective o)); [contradiction|discriminate]|].
    split; [reflexivity|]. exists F, Fs. split; [reflexivity|exact H]. }
  destruct (needs_solve o) as [[|]|x]; [|injection E as <- <-; apply HN; reflexivity|discriminate].
  destruct (solve_fields e false false s) as [s2 [F|x]]; [|discriminate]. destruct (is_linear (o_objective o)).
  - destruct (arg_fields s2 _) as [l|] eqn:EA; [|discriminate]. injection E as <- <-. eapply HL; [exact EA|reflexivity].
  - destruct (solve_fields_nl_default e s2) as [s3 [F2|x]]; [|discriminate]. destruct (arg_fields s3 _) as [l|] eqn:EA; [|discriminate]. injection E as <- <-. eapply HL; [exact EA|reflexivity].
Qed.
Lemma compute_J_cached e o s v : cached o v -> compute_J e (o, s) = ((o, s), Ok v).
Proof.
  intros (H1 & F & Fs & H2 & H3). unfold compute_J, bind, getS, lift, solve_arg_fields, needs_solve. rewrite H1, H2. cbn [negb fst].
  unfold stored_args. rewrite H2, H3. reflexivity.
Qed.
(** After one evaluation every further compute_J returns that value, for any simulation passed
    and also if the simulation has been changed in between *)
Theorem C44_second_call_returns_first_value :
  forall e o s1 o1 s1' v, ob_args (o_objective o) <> [] -> compute_J e (o, s1) = ((o1, s1'), Ok v) ->
  forall s2, compute_J e (o1, s2) = ((o1, s2), Ok v).
Proof. intros. apply compute_J_cached. eapply compute_J_caches; eassumption. Qed.
(** after scan_frequency, compute_J of the optimization's own simulation returns the value at the last frequency *)
Lemma scan_loop_cached e fs : forall o s o' s' l, ob_args (o_objective o) <> [] -> fs <> [] -> scan_loop e fs (o, s) = ((o', s'), Ok l) ->
  exists v, List.last l v = v /\ l <> [] /\ (forall d, List.last l d = v) /\ cached o' v.
Proof.
  induction fs as [|f fs IH]; intros o s o' s' l HA Hf H; [contradiction|]. cbn [scan_loop] in H.
  destruct (compute_J e (upd_current false o, _)) as [[o1 s1] [J|x]] eqn:E; [|discriminate].
  assert (HC := compute_J_caches e (upd_current false o) _ _ _ _ HA E).
  destruct (scan_loop e fs (o1, s)) as [[o2 s2] [l2|x]] eqn:E2; [|discriminate]. injection H as <- <- <-.
  destruct fs as [|f2 fs].
  - injection E2 as <- <- <-. exists J. split; [reflexivity|]. split; [discriminate|]. split; [reflexivity|exact HC].
  - apply compute_J_frame in E as ((C1 & _) & _). cbn in C1.
    destruct (IH o1 s o2 s2 l2 ltac:(rewrite C1; exact HA) ltac:(discriminate) E2) as (v & H1 & H2 & H3 & H4).
    exists v. destruct l2 as [|a l2]; [contradiction|]. split; [exact H1|]. split; [discriminate|]. split; [intro d; apply (H3 d)|exact H4].
Qed.
Theorem C44_stale_after_frequency_scan :
  forall e Nf df o s o' s' fs objs w, ob_args (o_objective o) <> [] -> scan_frequency e Nf df (o, s) = ((o', s'), Ok (fs, objs, w)) ->
  forall s2 d, compute_J e (o', s2) = ((o', s2), Ok (List.last objs d)).
Proof.
  intros e Nf df o s o' s' fs objs w HA H s2 d. unfold scan_frequency in H. cbn [snd] in H.
  destruct (scan_loop e _ (o, s)) as [[o1 s1] [l|x]] eqn:E; [|discriminate]. destruct Nf as [|[|Nf]]; try discriminate. injection H as <- <- <- <- <-.
  apply scan_loop_cached in E; [|exact HA|discriminate]. destruct E as (v & _ & _ & Hd & Hv). rewrite Hd. apply compute_J_cached, Hv.
Qed.
(** the property: any two evaluations *)
Definition C44_property : Prop :=
  forall e ob s design eps_m Rr eta beta fs ns ms o s1 o1 s1' v s2,
  Optimization ob s design eps_m Rr eta beta fs ns ms = Ok o -> compute_J e (o, s1) = ((o1, s1'), Ok v) ->
  snd (compute_J e (o1, s2)) = fresh_J e o s2.
Lemma lin_solution_zero e s : (forall k, k < s_M s -> rhs s k = RtoC 0) -> lin_solution e s = vzero.
Proof.
  intro H. unfold lin_solution, solver_direct. replace (all_zero (s_M s) (rhs s)) with true; [reflexivity|].
  symmetry. apply all_zero_spec. exact H.
Qed.
Theorem C44_passed_simulation_refuted : ~ C44_property.
Proof.
  intro HP. destruct run_example as (s0 & ob & o & H0 & HO & HOpt & HR & HV & HC & HM & HN).
  set (s1 := ex_run_sim o s0) in *. set (s2 := upd_src (mkNd 5 4 vzero) s1).
  assert (HR' := HR). destruct HR' as (G1 & G2 & G3 & G4 & G5 & G6 & G7).
  assert (HR2: lin_ready (intensity 20 1) [Ez_lin] o s2) by (split; [exact G1|split; [cbn; unfold s2, s_M in *; cbn; unfold s_M in HM; cbn in HM; rewrite HM; reflexivity|]]; auto 10).
  assert (Hf := new_opt_flag _ _ _ _ _ _ _ _ _ _ _ HOpt).
  assert (HJ := compute_J_lin ex_env o s1 _ _ Hf G4 G1 G2 G5 G6).
  assert (HB := HP ex_env ob s0 ex_design 5%R None (1 / 2)%R 10%R "linear"%string "hybrid"%string None o s1 _ _ _ s2 HOpt HJ).
  rewrite (C44_second_call_returns_first_value ex_env o s1 _ _ _ ltac:(rewrite G4; discriminate) HJ s2) in HB. cbn [snd] in HB.
  assert (HM2: s_M s2 = 20) by exact HM.
  destruct (C43_fresh_value_linear ex_env o s2 _ _ HR2 ex_env_exact ltac:(rewrite HM2; exact HN)) as (X & HX & HF).
  rewrite HF in HB. injection HB as HB.
  change (0 + rsum 20 (fun k => Cnorm2 (lin_solution ex_env s1 k)) = 0 + rsum 20 (fun k => Cnorm2 (X k)))%R in HB.
  rewrite HM2 in HX. change (s_A s2) with (s_A s1) in HX.
  assert (HX0: veq 20 X vzero).
  { apply (solves_unique 20 (s_A s1) X vzero (rhs s2) HN HX). intros r Hr. unfold rhs. cbn [s2 upd_src s_src nd_buf]. unfold vzero at 2.
    rewrite csum_0; [ring|]. intros; unfold vzero; ring. }
  set (Y := lin_solution ex_env s1) in *.
  assert (HY: solves 20 (s_A s1) Y (rhs s1)).
  { unfold Y, lin_solution. destruct (solver_direct_default_ok ex_env (s_M s1) (s_A s1) (rhs s1)) as [Y0 HY0]. rewrite HY0. rewrite HM in HY0.
    eapply solver_direct_correct; [exact ex_env_exact|exact HN|exact HY0]. }
  assert (HI: rsum 20 (fun k => Cnorm2 (Y k)) = 0%R).
  { rewrite (rsum_ext 20 (fun k => Cnorm2 (X k)) (fun _ => 0%R)) in HB.
    - rewrite (rsum_0 20 (fun _ => 0%R)) in HB by reflexivity. lra.
    - intros k Hk. rewrite (HX0 k Hk). unfold vzero, Cnorm2. cbn. ring. }
  assert (HZ: all_zero 20 Y = true) by (unfold all_zero; rewrite HI; destruct (Req_EM_T 0 0); [reflexivity|contradiction]).
  assert (HY0 := proj1 (all_zero_spec 20 Y) HZ).
  specialize (HY 5 ltac:(lia)). rewrite csum_0 in HY.
  - unfold rhs in HY. change (nd_buf (s_src s1) 5) with (RtoC 1) in HY. change (s_omega s1) with (s_omega s0) in HY.
    destruct (Simulation_fields _ _ _ _ _ _ _ H0) as (E1 & _). rewrite E1 in HY. apply (f_equal Im) in HY. autorewrite with reim in HY. cbn in HY.
    assert (P := ex_omega_pos). lra.
  - intros c Hc. rewrite (HY0 c Hc). ring.
Qed.
Example C44_met : exists s0 o o1 s1 v, fam_sim "Ez" 5 4 1 1 (fun _ => 1%R) = Ok s0 /\ ob_args (o_objective o) <> [] /\ o_current o = false /\
  compute_J ex_env (o, ex_run_sim o s0) = ((o1, s1), Ok v).
Proof.
  destruct run_example as (s0 & ob & o & H0 & HO & HOpt & HR & _). exists s0, o. destruct HR as (G1 & G2 & G3 & G4 & G5 & G6 & G7).
  assert (Hf := new_opt_flag _ _ _ _ _ _ _ _ _ _ _ HOpt). assert (HJ := compute_J_lin ex_env o _ _ _ Hf G4 G1 G2 G5 G6).
  do 3 eexists. split; [exact H0|]. split; [rewrite G4; discriminate|]. split; [exact Hf|exact HJ].
Qed.

(* ------------------------------------------------------------------ *)
(** * C45 *)
(** [si] is the simulation [s] up to its source and its density (with the permittivity that
    belongs to it): one of the simulations a run of [o] on [s] goes through *)
Definition variant (o : opt) (s si : sim) : Prop :=
  exists src, same_problem (upd_src src s) si \/ exists rho, same_problem (with_density o (upd_src src s) rho) si.
Lemma variant_refl o s : variant o s s.
Proof. exists (s_src s). left. repeat split. Qed.
Lemma variant_struct o s s1 s2 : variant o s s1 -> struct s1 s2 -> variant o s s2.
Proof.
  intros [src H] [[v HS] _]. exists v. destruct H as [H|[rho H]]; [left|right; exists rho].
  - unfold same_problem in *. cbn in *. intuition congruence.
  - eapply same_trans; [|exact HS]. unfold same_problem in *. cbn in *. intuition congruence.
Qed.
Lemma with_density_twice o s f g : same_problem (with_density o (with_density o s f) g) (with_density o s g).
Proof. repeat split. Qed.
Lemma variant_density o s s1 f : variant o s s1 -> variant o s (with_density o s1 f).
Proof.
  intros [src [H|[rho H]]]; exists src; right; exists f.
  - apply with_density_same, H.
  - eapply same_trans; [apply same_sym, (with_density_twice o _ rho)|]. apply with_density_same, H.
Qed.
Lemma solve_args_cases e o s o' s' r : solve_arg_fields e (o, s) = ((o', s'), r) ->
  (o' = o /\ (r = Ok tt -> needs_solve o = Ok false)) \/ exists l, r = Ok tt /\ o' = upd_arglist l o /\ fresh_J e o s = pf_call (ob_J (o_objective o)) l.
Proof.
  unfold solve_arg_fields. destruct (needs_solve o) as [[|]|x]; [|intro H; injection H as <- <- <-; left; auto || (split; [reflexivity|discriminate])..].
  unfold fresh_J, objective_value, is_linear. rewrite existsb_forallb.
  destruct (solve_fields e false false s) as [s1 [F|x]]; [|intro H; injection H as <- <- <-; left; split; [reflexivity|discriminate]].
  destruct (existsb oa_nl (ob_args (o_objective o))); cbn [negb rbind].
  - destruct (solve_fields_nl_default e s1) as [s2 [F2|x]]; [|intro H; injection H as <- <- <-; left; split; [reflexivity|discriminate]]. cbn [rbind].
    destruct (arg_fields s2 _) as [l|] eqn:EA; intro H; injection H as <- <- <-; [|left; split; [reflexivity|discriminate]]. right. exists l. auto.
  - destruct (arg_fields s1 _) as [l|] eqn:EA; intro H; injection H as <- <- <-; [|left; split; [reflexivity|discriminate]]. right. exists l. auto.
Qed.
Section Aligned.
Variables (e : env) (o : opt) (s : sim).
(** value [v] was computed on a variant of the simulation with source amplitude [a] *)
Definition computed_with (v a : R) : Prop := exists si, variant o s si /\ amplitude si = a /\ fresh_J e o si = Ok v.
Definition Al (o1 : opt) (s1 : sim) : Prop :=
  cfg o o1 /\ variant o s s1 /\ forall v, cached o1 v -> computed_with v (amplitude s1).
Lemma same_amp s1 s2 : same_tidy s1 s2 -> amplitude s2 = amplitude s1.
Proof. intros [(_ & _ & _ & _ & _ & _ & _ & E & _) _]. unfold amplitude. rewrite E. reflexivity. Qed.
Lemma solve_args_Al o1 s1 o2 s2 r : Al o1 s1 -> solve_arg_fields e (o1, s1) = ((o2, s2), r) -> Al o2 s2 /\ amplitude s2 = amplitude s1 /\
  forall v, r = Ok tt -> pf_call (ob_J (o_objective o2)) (stored_args o2) = Ok v -> computed_with v (amplitude s1).
Proof.
  intros (C & V & K) H. assert (HF := solve_args_frame _ _ _ _ _ _ H). destruct HF as (C1 & S1 & _). assert (EA := same_amp _ _ S1).
  assert (V2: variant o s s2) by (eapply variant_struct; [exact V|apply struct_same, S1]).
  assert (C2: cfg o o2) by (eapply cfg_trans; eassumption).
  assert (H' := H). apply solve_args_cases in H' as [[-> HN]|(l & -> & -> & HV)].
  - split; [|split; [exact EA|]].
    + split; [exact C2|]. split; [exact V2|]. rewrite EA. exact K.
    + intros v -> HV. specialize (HN eq_refl). apply K. unfold needs_solve in HN. destruct (o_current o1) eqn:Ec; [|discriminate]. cbn [negb] in HN.
        destruct (o_arglist o1) as [[|F Fs]|] eqn:Ea; try discriminate. split; [exact Ec|]. exists F, Fs. split; [exact Ea|].
        unfold stored_args in HV. rewrite Ea in HV. exact HV.
  - assert (HV': forall v, pf_call (ob_J (o_objective o1)) l = Ok v -> computed_with v (amplitude s1)).
    { intros v Hv. exists s1. split; [exact V|]. split; [reflexivity|]. rewrite <- (fresh_cfg e o o1 s1 C), HV. exact Hv. }
    split; [|split; [exact EA|]].
    + split; [exact C2|]. split; [exact V2|]. rewrite EA. intros v (_ & F & Fs & E1 & E2). cbn in E1. injection E1 as ->. apply HV', E2.
    + intros v _ Hv. apply HV', Hv.
Qed.
Lemma compute_J_Al o1 s1 o2 s2 v : Al o1 s1 -> compute_J e (o1, s1) = ((o2, s2), Ok v) -> Al o2 s2 /\ amplitude s2 = amplitude s1 /\ computed_with v (amplitude s1).
Proof.
  intros HA H. unfold compute_J, bind, getS, lift in H. destruct (solve_arg_fields e (o1, s1)) as [[o3 s3] [[]|x]] eqn:E; [|discriminate].
  cbn [fst] in H. injection H as <- <- H. destruct (solve_args_Al _ _ _ _ _ HA E) as (H1 & H2 & H3). auto.
Qed.
Lemma compute_dJ_Al o1 s1 o2 s2 g : Al o1 s1 -> compute_dJ e (o1, s1) = ((o2, s2), Ok g) -> Al o2 s2 /\ amplitude s2 = amplitude s1.
Proof.
  intros HA H. unfold compute_dJ in H. destruct (solve_arg_fields e (o1, s1)) as [[o3 s3] [[]|x]] eqn:E; [|discriminate].
  destruct (solve_args_Al _ _ _ _ _ HA E) as ((H1 & H2 & H3) & H4 & _).
  destruct (grad_loop _ _ _ _ _) as [s4 r4] eqn:EG. apply grad_loop_frame in EG. injection H as <- <- ->. assert (EA := same_amp _ _ EG).
  split; [|congruence]. split; [exact H1|]. split; [eapply variant_struct; [exact H2|apply struct_same, EG]|]. rewrite EA. exact H3.
Qed.
Lemma push_Al v o1 s1 : Al o1 s1 -> Al (push_obj v o1) s1.
Proof. intros H. exact H. Qed.
Lemma not_cached o1 v : o_current o1 = false -> ~ cached o1 v.
Proof. intros H (H1 & _). congruence. Qed.
Lemma set_region_Al x o1 s1 o2 s2 : Al o1 s1 -> set_design_region x (o1, s1) = ((o2, s2), Ok tt) ->
  Al o2 s2 /\ amplitude s2 = amplitude s1 /\ o_objs o2 = o_objs o1 /\ o_src_amps o2 = o_src_amps o1.
Proof.
  intros (C & V & _) H. apply set_region_spec in H as [(_ & rho & Hr & [H|H])|((y & H) & _)]; [| |discriminate]; injection H as -> ->.
  - split; [|auto]. split; [exact C|]. rewrite (with_density_cfg o o1) by exact C. split; [apply variant_density, V|].
    intros v Hv. apply not_cached in Hv; [contradiction|reflexivity].
  - split; [|auto]. split; [exact C|]. split; [exact V|]. intros v Hv. apply not_cached in Hv; [contradiction|reflexivity].
Qed.
Lemma update_rho_Al g st o1 s1 o2 s2 : Al o1 s1 -> update_rho g st (o1, s1) = ((o2, s2), Ok tt) ->
  Al o2 s2 /\ o_objs o2 = o_objs o1 /\ o_src_amps o2 = o_src_amps o1.
Proof.
  intros (C & V & _) H. apply update_rho_spec in H as [(_ & rho & Hr & H)|((y & H) & _)]; [|discriminate]; injection H as -> ->.
  split; [|auto]. split; [exact C|]. rewrite (with_density_cfg o o1) by exact C. split; [apply variant_density, V|].
  intros v Hv. apply not_cached in Hv; [contradiction|reflexivity].
Qed.
Lemma set_amp_Al o1 s1 o2 s2 : Al o1 s1 -> set_source_amplitude e (o1, s1) = ((o2, s2), Ok tt) ->
  Al o2 s2 /\ o_objs o2 = o_objs o1 /\ o_src_amps o2 = (o_src_amps o1 ++ [amplitude s1])%list.
Proof.
  intros (C & V & _) H. apply set_amp_frame in H as (C1 & S1 & O1 & A1 & F1 & _). specialize (F1 eq_refl).
  split; [|auto]. split; [eapply cfg_trans; eassumption|]. split; [eapply variant_struct; eassumption|].
  intros v Hv. apply not_cached in Hv; [contradiction|exact F1].
Qed.
(** new entries of the two lists, pairwise aligned *)
Definition aligned_growth (o1 o2 : opt) : Prop :=
  exists vs amps, o_objs o2 = (o_objs o1 ++ vs)%list /\ o_src_amps o2 = (o_src_amps o1 ++ amps)%list /\ List.Forall2 computed_with vs amps.
Lemma growth_refl o1 o2 : o_objs o2 = o_objs o1 -> o_src_amps o2 = o_src_amps o1 -> aligned_growth o1 o2.
Proof. intros H1 H2. exists [], []. rewrite !app_nil_r. auto. Qed.
Lemma growth_trans o1 o2 o3 : aligned_growth o1 o2 -> aligned_growth o2 o3 -> aligned_growth o1 o3.
Proof.
  intros (v1 & a1 & H1 & H2 & H3) (v2 & a2 & H4 & H5 & H6). exists (v1 ++ v2)%list, (a1 ++ a2)%list.
  rewrite H4, H5, H1, H2, !app_assoc. split; [reflexivity|]. split; [reflexivity|]. apply Forall2_app; assumption.
Qed.
Lemma eval_step_Al o1 s1 o2 s2 g : Al o1 s1 -> eval_step e (o1, s1) = ((o2, s2), Ok g) -> Al o2 s2 /\ aligned_growth o1 o2.
Proof.
  intros HA H. unfold eval_step, bind, modS in H. destruct (compute_J e (o1, s1)) as [[o3 s3] [v|x]] eqn:E1; [|discriminate].
  destruct (compute_J_Al _ _ _ _ _ HA E1) as (A1 & M1 & K1). apply compute_J_frame in E1 as (_ & _ & O1 & P1). cbn [fst snd] in H.
  destruct (set_source_amplitude e (push_obj v o3, s3)) as [[o4 s4] [[]|x]] eqn:E2; [|discriminate].
  destruct (set_amp_Al _ _ _ _ (push_Al v _ _ A1) E2) as (A2 & O2 & P2).
  destruct (compute_dJ_Al _ _ _ _ _ A2 H) as [A3 _]. split; [exact A3|]. apply compute_dJ_frame in H as (_ & _ & O3 & P3).
  exists [v], [amplitude s1]. cbn [push_obj o_objs o_src_amps] in O2, P2. rewrite O3, O2, P3, P2, O1, P1, M1. auto.
Qed.
Lemma loops_Al step :
  (forall n o1 s1 o2 s2, Al o1 s1 -> run_GD e step n (o1, s1) = ((o2, s2), Ok tt) -> aligned_growth o1 o2) /\
  (forall b1 b2 n i m v o1 s1 o2 s2, Al o1 s1 -> run_ADAM e step b1 b2 n i m v (o1, s1) = ((o2, s2), Ok tt) -> aligned_growth o1 o2).
Proof.
  split.
  - induction n as [|n IH]; intros o1 s1 o2 s2 HA H; [injection H as <- <-; apply growth_refl; reflexivity|].
    rewrite run_GD_step in H. unfold bind in H. destruct (eval_step e (o1, s1)) as [[o3 s3] [g|x]] eqn:E1; [|discriminate].
    destruct (eval_step_Al _ _ _ _ _ HA E1) as [A1 G1]. destruct (update_rho g step (o3, s3)) as [[o4 s4] [[]|x]] eqn:E2; [|discriminate].
    destruct (update_rho_Al _ _ _ _ _ _ A1 E2) as (A2 & O2 & P2).
    eapply growth_trans; [exact G1|]. eapply growth_trans; [apply growth_refl; [exact O2|exact P2]|]. eapply IH; eassumption.
  - intros b1 b2. induction n as [|n IH]; intros i m v o1 s1 o2 s2 HA H; [injection H as <- <-; apply growth_refl; reflexivity|].
    rewrite run_ADAM_step in H. unfold bind in H. destruct (eval_step e (o1, s1)) as [[o3 s3] [g|x]] eqn:E1; [|discriminate].
    destruct (eval_step_Al _ _ _ _ _ HA E1) as [A1 G1]. destruct (update_rho _ step (o3, s3)) as [[o4 s4] [[]|x]] eqn:E2; [|discriminate].
    destruct (update_rho_Al _ _ _ _ _ _ A1 E2) as (A2 & O2 & P2).
    eapply growth_trans; [exact G1|]. eapply growth_trans; [apply growth_refl; [exact O2|exact P2]|]. eapply IH; eassumption.
Qed.
Lemma lb_serve_Al c o1 s1 o2 s2 q : Al o1 s1 -> lb_serve e c (o1, s1) = ((o2, s2), Ok q) -> Al o2 s2 /\ aligned_growth o1 o2.
Proof.
  intros HA H. destruct c as [x|x|x]; cbn [lb_serve] in H; unfold bind, modS, getS, ret in H.
  - destruct (set_design_region x (o1, s1)) as [[o3 s3] [[]|y]] eqn:E1; [|discriminate]. destruct (set_region_Al _ _ _ _ _ HA E1) as (A1 & _ & O1 & P1).
    destruct (compute_J e (o3, s3)) as [[o4 s4] [J|y]] eqn:E2; [|discriminate]. destruct (compute_J_Al _ _ _ _ _ A1 E2) as (A2 & _ & _).
    apply compute_J_frame in E2 as (_ & _ & O2 & P2). injection H as <- <- <-. split; [exact A2|]. apply growth_refl; congruence.
  - destruct (set_design_region x (o1, s1)) as [[o3 s3] [[]|y]] eqn:E1; [|discriminate]. destruct (set_region_Al _ _ _ _ _ HA E1) as (A1 & _ & O1 & P1).
    destruct (compute_dJ e (o3, s3)) as [[o4 s4] [J|y]] eqn:E2; [|discriminate]. destruct (compute_dJ_Al _ _ _ _ _ A1 E2) as (A2 & _).
    apply compute_dJ_frame in E2 as (_ & _ & O2 & P2). injection H as <- <- <-. split; [exact A2|]. apply growth_refl; congruence.
  - destruct (compute_J e (o1, s1)) as [[o3 s3] [v|y]] eqn:E1; [|discriminate]. destruct (compute_J_Al _ _ _ _ _ HA E1) as (A1 & M1 & K1).
    apply compute_J_frame in E1 as (_ & _ & O1 & P1). cbn [fst snd] in H.
    destruct (set_design_region x (push_obj v o3, s3)) as [[o4 s4] [[]|y]] eqn:E2; [|discriminate].
    destruct (set_region_Al _ _ _ _ _ (push_Al v _ _ A1) E2) as (A2 & M2 & O2 & P2).
    destruct (set_source_amplitude e (o4, s4)) as [[o5 s5] [[]|y]] eqn:E3; [|discriminate].
    destruct (set_amp_Al _ _ _ _ A2 E3) as (A3 & O3 & P3). injection H as <- <- <-. split; [exact A3|].
    exists [v], [amplitude s1]. cbn [push_obj o_objs o_src_amps] in O2, P2. rewrite O3, O2, P3, P2, O1, P1, M2, M1. auto.
Qed.
Lemma lb_serve_all_Al l : forall o1 s1 o2 s2 q, Al o1 s1 -> lb_serve_all e l (o1, s1) = ((o2, s2), Ok q) -> Al o2 s2 /\ aligned_growth o1 o2.
Proof.
  induction l as [|c l IH]; intros o1 s1 o2 s2 q HA H; cbn [lb_serve_all] in H; unfold bind, ret in H; [injection H as <- <- <-; split; [exact HA|apply growth_refl; reflexivity]|].
  destruct (lb_serve e c (o1, s1)) as [[o3 s3] [q1|y]] eqn:E1; [|discriminate]. destruct (lb_serve_Al _ _ _ _ _ _ HA E1) as [A1 G1].
  destruct (lb_serve_all e l (o3, s3)) as [[o4 s4] [q2|y]] eqn:E2; [|discriminate]. destruct (IH _ _ _ _ _ A1 E2) as [A2 G2].
  injection H as <- <- <-. split; [exact A2|eapply growth_trans; eassumption].
Qed.
End Aligned.
(** one run, any method: the entries it appends are pairwise aligned *)
Theorem C45_run_appends_aligned_entries :
  forall e m n step b1 b2 o s o' s', run e m n step b1 b2 (o, s) = ((o', s'), Ok tt) ->
  exists vs amps, o_objs o' = (o_objs o ++ vs)%list /\ o_src_amps o' = (o_src_amps o ++ amps)%list /\
    List.Forall2 (fun v a => exists si, variant o s si /\ amplitude si = a /\ fresh_J e o si = Ok v) vs amps.
Proof.
  intros e m n step b1 b2 o s o' s' H. unfold run in H. cbn [fst snd] in H. destruct (s_rho s) as [| |rho] eqn:Er; [discriminate..|].
  assert (HA: Al e o s (upd_current false o) s).
  { split; [repeat split|]. split; [apply variant_refl|]. intros v Hv. apply not_cached in Hv; [contradiction|reflexivity]. }
  change (aligned_growth e o s (upd_current false o) o').
  destruct m as [calls x| | |]; [| | |discriminate].
  - unfold run_LBFGS in H. cbn [snd] in H. rewrite Er in H. unfold bind in H.
    destruct (lb_serve_all e calls _) as [[o1 s1] [q|y]] eqn:E1; [|discriminate]. destruct (lb_serve_all_Al _ _ _ _ _ _ _ _ _ HA E1) as [A1 G1].
    destruct (set_region_Al _ _ _ _ _ _ _ _ A1 H) as (_ & _ & O2 & P2). eapply growth_trans; [exact G1|apply growth_refl; assumption].
  - eapply (proj1 (loops_Al e o s step)); eassumption.
  - eapply (proj2 (loops_Al e o s step)); eassumption.
Qed.
(** histories: an optimization is constructed, then used in runs on simulations that may be
    edited in any way between the runs; other methods may be called between the runs as long
    as they leave the two lists alone (they all do).  The list holds the optimization and the
    simulation at the start of each run. *)
Inductive history (e : env) : list (opt * sim) -> opt -> Prop :=
| hist_new ob s design eps_m Rr eta beta fs ns ms o : Optimization ob s design eps_m Rr eta beta fs ns ms = Ok o -> history e [] o
| hist_run rs o o1 s m n step b1 b2 o2 s2 : history e rs o -> o_objs o1 = o_objs o -> o_src_amps o1 = o_src_amps o ->
    run e m n step b1 b2 (o1, s) = ((o2, s2), Ok tt) -> history e (rs ++ [(o1, s)]) o2.
Theorem C45_objectives_and_amplitudes_aligned :
  forall e rs o, history e rs o ->
  List.length (o_objs o) = List.length (o_src_amps o) /\
  forall k v a, nth_error (o_objs o) k = Some v -> nth_error (o_src_amps o) k = Some a ->
    exists o1 s1 si, In (o1, s1) rs /\ variant o1 s1 si /\ amplitude si = a /\ fresh_J e o1 si = Ok v.
Proof.
  intros e rs o H. set (P := fun rs v a => exists o1 s1 si, In (o1, s1) rs /\ variant o1 s1 si /\ amplitude si = a /\ fresh_J e o1 si = Ok v).
  assert (HM: forall rs r l1 l2, List.Forall2 (P rs) l1 l2 -> List.Forall2 (P (rs ++ [r])%list) l1 l2).
  { clear. intros rs r l1 l2 H. induction H as [|v a l1 l2 (o1 & s1 & si & H1 & H2) _ IH]; constructor; [|exact IH].
    exists o1, s1, si. split; [apply in_or_app; auto|exact H2]. }
  assert (HF: List.Forall2 (P rs) (o_objs o) (o_src_amps o)).
  { induction H as [ob s design eps_m Rr eta beta fs ns ms o H|rs o o1 s m n step b1 b2 o2 s2 _ IH E1 E2 H].
    - unfold Optimization in H. destruct Rr; [destruct (get_W _ _ _ _ _); [|discriminate]|]; injection H as <-; constructor.
    - destruct (C45_run_appends_aligned_entries _ _ _ _ _ _ _ _ _ _ H) as (vs & amps & -> & -> & HV). rewrite E1, E2.
      apply Forall2_app; [apply HM, IH|]. clear - HV. induction HV as [|v a vs amps (si & HV & H1 & H2) _ IH]; constructor; [|exact IH].
      exists o1, s, si. split; [apply in_or_app; right; left; reflexivity|auto]. }
  clear H HM.
  assert (HL: List.length (o_objs o) = List.length (o_src_amps o)) by (induction HF; cbn; congruence). split; [exact HL|]. clear HL.
  induction HF as [|v0 a0 vs amps H0 _ IH]; intros [|k] v a Hv Ha; try discriminate.
  - injection Hv as <-. injection Ha as <-. exact H0.
  - eapply IH; eassumption.
Qed.
(** a history with an ADAM run after a GD run, and a driver of scipy making calls of all kinds *)
Definition lb_ready (J : pyfun) (args : list obj_arg) (o : opt) (s : sim) : Prop :=
  lin_ready J args o s /\ args <> [] /\ (o_current o = false \/ exists v, cached o v).
Lemma lb_set_ok J args x o s : lb_ready J args o s -> exists o' s', set_design_region x (o, s) = ((o', s'), Ok tt) /\ lb_ready J args o' s' /\ o_current o' = false.
Proof.
  intros ((H1 & H2 & (rho & H3) & H4 & H5 & H6 & H7) & Hn & _). unfold set_design_region. rewrite H3. destruct (xgt _ _); do 2 eexists; (split; [reflexivity|]).
  - split; [|reflexivity]. split; [|auto]. split; [exact H1|]. split; [exact H2|]. split; [eexists; reflexivity|]. repeat (split; [assumption|]). assumption.
  - split; [|reflexivity]. split; [|auto]. split; [exact H1|]. split; [exact H2|]. split; [eexists; exact H3|]. repeat (split; [assumption|]). assumption.
Qed.
Lemma lb_J_ok e J args o s : lb_ready J args o s -> exists o' s' v, compute_J e (o, s) = ((o', s'), Ok v) /\ lb_ready J args o' s'.
Proof.
  intros (HR & Hn & [Hc|[v Hc]]).
  - assert (HR' := HR). destruct HR' as (H1 & H2 & (rho & H3) & H4 & H5 & H6 & H7).
    assert (HJ := compute_J_lin e o s J args Hc H4 H1 H2 H5 H6). do 3 eexists. split; [exact HJ|].
    assert (HF := compute_J_frame _ _ _ _ _ _ HJ). destruct HF as (C1 & S1 & _). split; [eapply lin_ready_frame; [exact C1|exact S1|exact HR]|]. split; [exact Hn|].
    right. eexists. apply (compute_J_caches e o s _ _ _ ltac:(rewrite H4; exact Hn) HJ).
  - exists o, s, v. split; [apply compute_J_cached, Hc|]. split; [exact HR|eauto].
Qed.
Lemma lb_dJ_ok e J args o s : lb_ready J args o s -> o_current o = false -> exists o' s' g, compute_dJ e (o, s) = ((o', s'), Ok g) /\ lb_ready J args o' s'.
Proof.
  intros (HR & Hn & _) Hc. assert (HR' := HR). destruct HR' as (H1 & H2 & (rho & H3) & H4 & H5 & H6 & H7).
  assert (HJ := compute_J_lin e o s J args Hc H4 H1 H2 H5 H6).
  assert (HO: Objective J args = Ok (o_objective o)) by (unfold Objective; rewrite H6, Nat.eqb_refl, H4; reflexivity).
  assert (HT := gradient_table e o s rho J args _ _ _ HO eq_refl Hc H3 (lin_args_new args H5) HJ).
  rewrite lin_no_grad in HT by exact H5. destruct HT as [g HT].
  destruct (compute_dJ e (o, s)) as [[o3 s3] r3] eqn:E3. cbn [snd] in HT. subst r3.
  exists o3, s3, g. split; [reflexivity|]. assert (HF := compute_dJ_frame _ _ _ _ _ _ E3). destruct HF as (C3 & S3 & _).
  split; [eapply lin_ready_frame; eassumption|]. split; [exact Hn|]. right.
  unfold compute_dJ in E3. rewrite (solve_lin_args e o s J args) in E3 by assumption. destruct (grad_loop _ _ _ _ _) as [s4 r4]. injection E3 as <- _ _.
  destruct args as [|a args]; [contradiction|]. eexists. split; [reflexivity|]. do 2 eexists. split; [reflexivity|].
  cbn [upd_arglist o_objective]. rewrite H4. cbn [set_J ob_J]. unfold pf_call.
  match goal with |- (if ?b then _ else _) = _ => replace b with true; [reflexivity|] end.
  symmetry. apply Nat.eqb_eq. rewrite <- H6. cbn [List.length]. f_equal. apply map_length.
Qed.
Lemma lb_serve_ok e J args c o s : lb_ready J args o s -> exists o' s' q, lb_serve e c (o, s) = ((o', s'), Ok q) /\ lb_ready J args o' s'.
Proof.
  intro HR. destruct c as [x|x|x]; cbn [lb_serve]; unfold bind, modS, getS, ret.
  - destruct (lb_set_ok J args x o s HR) as (o1 & s1 & -> & R1 & _). destruct (lb_J_ok e J args o1 s1 R1) as (o2 & s2 & v & -> & R2). eauto 6.
  - destruct (lb_set_ok J args x o s HR) as (o1 & s1 & -> & R1 & F1). destruct (lb_dJ_ok e J args o1 s1 R1 F1) as (o2 & s2 & v & -> & R2). eauto 6.
  - destruct (lb_J_ok e J args o s HR) as (o1 & s1 & v & -> & R1). cbn [fst snd].
    destruct (lb_set_ok J args x (push_obj v o1) s1 R1) as (o2 & s2 & -> & R2 & _).
    destruct (set_source_amplitude e (o2, s2)) as [[o3 s3] r3] eqn:E3. assert (E3' := E3). apply set_amp_frame in E3' as (C3 & _ & _ & _ & K3 & L3).
    destruct R2 as (R2 & Hn & _). destruct L3 as [-> ->]; [apply R2|]. do 3 eexists. split; [reflexivity|].
    split; [eapply lin_ready_frame; [exact C3|apply same_tidy_refl|exact R2]|]. auto.
Qed.
(** whatever sequence of calls the library makes, a linear objective of Ez polarization does not raise *)
Lemma lb_run_succeeds e calls x n step b1 b2 J args o s : lin_ready J args o s -> args <> [] ->
  exists o' s', run e (MLBFGS calls x) n step b1 b2 (o, s) = ((o', s'), Ok tt) /\ lin_ready J args o' s'.
Proof.
  intros HR Hn. assert (HB: lb_ready J args (upd_current false o) s) by (split; [exact HR|split; [exact Hn|left; reflexivity]]).
  assert (HA: forall l o s, lb_ready J args o s -> exists o' s' q, lb_serve_all e l (o, s) = ((o', s'), Ok q) /\ lb_ready J args o' s').
  { clear. induction l as [|c l IH]; intros o s HR; cbn [lb_serve_all]; unfold bind, ret; [eauto 6|].
    destruct (lb_serve_ok e J args c o s HR) as (o1 & s1 & q1 & -> & R1). destruct (IH o1 s1 R1) as (o2 & s2 & q2 & -> & R2). eauto 6. }
  destruct HR as (H1 & H2 & (rho & H3) & H4). unfold run. cbn [snd fst]. rewrite H3. unfold run_LBFGS. cbn [snd]. rewrite H3. unfold bind.
  destruct (HA calls _ _ HB) as (o1 & s1 & q & -> & R1). destruct (lb_set_ok J args x o1 s1 R1) as (o2 & s2 & -> & R2 & _).
  exists o2, s2. split; [reflexivity|apply R2].
Qed.
(** a history with runs of all three methods *)
Example C45_met :
  exists s0 ob o, fam_sim "Ez" 5 4 1 1 (fun _ => 1%R) = Ok s0 /\ Optimization ob s0 ex_design 5 None (1 / 2) 10 "linear" "hybrid" None = Ok o /\
  forall e n1 n2 calls x step b1 b2, exists o1 s1 o2 s2 o3 s3,
    run e MGD n1 step b1 b2 (o, ex_run_sim o s0) = ((o1, s1), Ok tt) /\
    run e (MLBFGS calls x) n2 step b1 b2 (o1, s1) = ((o2, s2), Ok tt) /\
    run e MADAM n2 step b1 b2 (o2, s2) = ((o3, s3), Ok tt) /\
    history e [(o, ex_run_sim o s0); (o1, s1); (o2, s2)] o3.
Proof.
  destruct run_example as (s0 & ob & o & H0 & HO & HOpt & HR & _). exists s0, ob, o. split; [exact H0|]. split; [exact HOpt|].
  intros e n1 n2 calls x step b1 b2.
  destruct (run_succeeds e MGD n1 step b1 b2 _ _ _ _ (or_introl eq_refl) HR) as (o1 & s1 & E1 & R1).
  destruct (lb_run_succeeds e calls x n2 step b1 b2 _ _ _ _ R1 ltac:(discriminate)) as (o2 & s2 & E2 & R2).
  destruct (run_succeeds e MADAM n2 step b1 b2 _ _ _ _ (or_intror eq_refl) R2) as (o3 & s3 & E3 & R3).
  exists o1, s1, o2, s2, o3, s3. split; [exact E1|]. split; [exact E2|]. split; [exact E3|].
  assert (HH := hist_new e _ _ _ _ _ _ _ _ _ _ _ HOpt).
  assert (HH1 := hist_run e _ _ _ _ _ _ _ _ _ _ _ HH eq_refl eq_refl E1).
  assert (HH2 := hist_run e _ _ _ _ _ _ _ _ _ _ _ HH1 eq_refl eq_refl E2).
  exact (hist_run e _ _ _ _ _ _ _ _ _ _ _ HH2 eq_refl eq_refl E3).
Qed.

(* ------------------------------------------------------------------ *)
(** * C46 *)
Lemma design_pixels_S n d : design_pixels (S n) d = (design_pixels n d ++ if Req_EM_T (d n) 1 then [n] else [])%list.
Proof. unfold design_pixels. rewrite seq_S, filter_app. cbn. destruct (Req_EM_T (d n) 1); reflexivity. Qed.
Lemma in_pixels n d k : In k (design_pixels n d) <-> k < n /\ d k = 1%R.
Proof.
  unfold design_pixels. rewrite filter_In, in_seq. destruct (Req_EM_T (d k) 1) as [E|E]; split; intros [H1 H2]; try discriminate; try contradiction; (split; [lia|auto]).
Qed.
Lemma rank_nth n d k : k < List.length (design_pixels n d) -> let p := List.nth k (design_pixels n d) 0 in design_rank d p = k /\ d p = 1%R /\ p < n.
Proof.
  intros Hk p. assert (HIn: In p (design_pixels n d)) by (apply nth_In, Hk). apply in_pixels in HIn as [HIn HD]. split; [|auto]. subst p. clear HIn HD.
  induction n as [|n IH]; [cbn in Hk; lia|]. rewrite design_pixels_S in *. rewrite app_length in Hk.
  destruct (lt_dec k (List.length (design_pixels n d))) as [L|L].
  - rewrite app_nth1 by exact L. apply IH, L.
  - destruct (Req_EM_T (d n) 1) as [E|E]; [|cbn in Hk; lia]. cbn in Hk. rewrite app_nth2 by lia.
    replace (k - _) with 0 by lia. change (List.nth 0 [n] 0) with n. unfold design_rank. lia.
Qed.
Lemma nth_rank n d k : k < n -> d k = 1%R -> design_rank d k < List.length (design_pixels n d) /\ List.nth (design_rank d k) (design_pixels n d) 0 = k.
Proof.
  intros Hk Hd. induction n as [|n IH]; [lia|]. rewrite design_pixels_S, app_length.
  destruct (Nat.eq_dec k n) as [->|Hne].
  - destruct (Req_EM_T (d n) 1) as [_|]; [|contradiction]. cbn [List.length]. unfold design_rank. split; [lia|].
    rewrite app_nth2 by lia. replace (_ - _) with 0 by lia. reflexivity.
  - destruct IH as [I1 I2]; [lia|]. split; [lia|]. rewrite app_nth1 by exact I1. exact I2.
Qed.
(** inserting a vector and extracting it again, with n pixels in total *)
Theorem C46_insert_and_extract_are_inverse :
  forall n design x rho,
  (forall k, k < List.length (design_pixels n design) -> get_design_region n design (insert_design design x rho) k = x k) /\
  (forall k, design k <> 1%R -> insert_design design x rho k = rho k) /\
  (forall k, k < n -> insert_design design (get_design_region n design rho) rho k = rho k).
Proof.
  intros n d x rho. split; [|split].
  - intros k Hk. destruct (rank_nth n d k Hk) as (H1 & H2 & _). unfold get_design_region, insert_design.
    destruct (Req_EM_T _ 1); [|contradiction]. rewrite H1. reflexivity.
  - intros k Hk. unfold insert_design. destruct (Req_EM_T (d k) 1); [contradiction|reflexivity].
  - intros k Hk. unfold insert_design. destruct (Req_EM_T (d k) 1) as [E|E]; [|reflexivity].
    unfold get_design_region. destruct (nth_rank n d k Hk E) as [_ ->]. reflexivity.
Qed.
(** the pixels of the design region are listed in order, each once *)
Theorem C46_design_vector_order :
  forall n design, (forall k, In k (design_pixels n design) <-> k < n /\ design k = 1%R) /\
  (forall i j, i < j -> j < List.length (design_pixels n design) -> List.nth i (design_pixels n design) 0 < List.nth j (design_pixels n design) 0).
Proof.
  intros n d. split; [intro; apply in_pixels|]. induction n as [|n IH]; intros i j Hij Hj; [cbn in Hj; lia|].
  rewrite design_pixels_S in *. rewrite app_length in Hj.
  destruct (lt_dec j (List.length (design_pixels n d))) as [L|L].
  - rewrite !app_nth1 by lia. apply IH; lia.
  - destruct (Req_EM_T (d n) 1) as [E|E]; [|cbn in Hj; lia]. cbn in Hj. rewrite (app_nth2 _ _ _ (n := j)) by lia.
    replace (j - _) with 0 by lia. change (List.nth 0 [n] 0) with n. rewrite app_nth1 by lia.
    destruct (rank_nth n d i ltac:(lia)) as (_ & _ & H). exact H.
Qed.
(** distance of the stored design vector from x *)
Definition region_error (o : opt) (s : sim) (x rho : rvec) : R :=
  rnrm (List.length (design_pixels (s_M s) (o_design o))) (fun k => x k - get_design_region (s_M s) (o_design o) rho k)%R.
Definition region_norm (o : opt) (s : sim) (x : rvec) : R := rnrm (List.length (design_pixels (s_M s) (o_design o))) x.
Lemma xgt_false a b t : (0 <= a)%R -> (0 <= b)%R -> (0 < t)%R -> (xgt (xdiv a b) t = false <-> (a <= t * b)%R).
Proof.
  intros Ha Hb Ht. unfold xdiv. destruct (Req_EM_T b 0) as [E|E].
  - subst b. destruct (Req_EM_T a 0) as [E|E]; cbn; split; intro H; try reflexivity; try discriminate; lra.
  - assert (0 < b)%R by lra. cbn. destruct (Rlt_dec t (a / b)) as [L|L]; split; intro H1; try reflexivity; try discriminate.
    + exfalso. apply (Rmult_lt_compat_r b) in L; [|assumption]. unfold Rdiv in L. rewrite Rmult_assoc, Rinv_l in L by assumption. lra.
    + apply Rnot_lt_le in L. apply (Rmult_le_compat_r b) in L; [|lra]. unfold Rdiv in L. rewrite Rmult_assoc, Rinv_l in L by assumption. lra.
Qed.
Theorem C46_design_vector_is_stored :
  forall x o s rho, s_rho s = Val rho ->
  exists o' s' rho', set_design_region x (o, s) = ((o', s'), Ok tt) /\ s_rho s' = Val rho' /\
    (region_error o s x rho' <= 1 / 10 ^ 10 * region_norm o s x)%R /\
    (forall k, o_design o k <> 1%R -> rho' k = rho k) /\
    (* the density is replaced exactly when it is not yet within the tolerance *)
    ((region_error o s x rho <= 1 / 10 ^ 10 * region_norm o s x)%R -> s' = s) /\
    ((region_error o s x rho > 1 / 10 ^ 10 * region_norm o s x)%R -> region_error o s x rho' = 0%R /\ s' = with_density o s rho').
Proof.
  intros x o s rho Hr. unfold set_design_region. rewrite Hr. cbv zeta. fold (region_error o s x rho) (region_norm o s x).
  assert (HP: (0 < 1 / 10 ^ 10)%R) by (apply Rdiv_lt_0_compat; [lra|apply pow_lt; lra]).
  assert (HX := xgt_false (region_error o s x rho) (region_norm o s x) (1 / 10 ^ 10) (rnrm_ge0 _ _) (rnrm_ge0 _ _) HP).
  destruct (xgt _ _).
  - assert (HB: ~ (region_error o s x rho <= 1 / 10 ^ 10 * region_norm o s x)%R) by (intro H; apply HX in H; discriminate).
    assert (HE: region_error o s x (insert_design (o_design o) x rho) = 0%R).
    { apply rnrm_zero. intros k Hk. cbv beta. rewrite (proj1 (C46_insert_and_extract_are_inverse (s_M s) (o_design o) x rho) k Hk). ring. }
    do 3 eexists. split; [reflexivity|]. split; [reflexivity|]. rewrite HE.
    split; [assert (0 <= region_norm o s x)%R by apply rnrm_ge0; nra|].
    split; [intros k Hk; apply (proj1 (proj2 (C46_insert_and_extract_are_inverse (s_M s) (o_design o) x rho))), Hk|]. split; [intro HH; exact (False_ind _ (HB HH))|]. intros _. split; [reflexivity|reflexivity].
  - assert (HB: (region_error o s x rho <= 1 / 10 ^ 10 * region_norm o s x)%R) by (apply HX; reflexivity).
    do 3 eexists. split; [reflexivity|]. split; [exact Hr|]. split; [exact HB|]. split; [auto|]. split; [auto|]. intro. lra.
Qed.
(** LBFGS when the library only ever asks for the vector it was started from (maxiter = 0) *)
Definition only_vector (x0 : rvec) (n : nat) (calls : list lb_call) : Prop :=
  forall c, In c calls -> match c with CallF x | CallG x | CallBack x => forall k, k < n -> x k = x0 k end.
Theorem C46_lbfgs_without_steps :
  forall e calls x n step b1 b2 o s o' s' r rho, s_rho s = Val rho ->
  let len := List.length (design_pixels (s_M s) (o_design o)) in
  let x0 := get_design_region (s_M s) (o_design o) rho in
  only_vector x0 len calls -> (forall k, k < len -> x k = x0 k) ->
  run e (MLBFGS calls x) n step b1 b2 (o, s) = ((o', s'), r) ->
  s_rho s' = Val rho /\ s_eps s' = s_eps s /\ s_A s' = s_A s.
Proof.
  intros e calls x n step b1 b2 o s o' s' r rho Hr len x0 HC Hx H.
  set (I := fun o1 s1 => cfg o o1 /\ struct s s1).
  assert (HS: forall y, (forall k, k < len -> y k = x0 k) -> forall o1 s1 o2 s2 r, I o1 s1 -> set_design_region y (o1, s1) = ((o2, s2), r) -> I o2 s2).
  { intros y Hy o1 s1 o2 s2 r1 [C HSt] HH. destruct (struct_facts _ _ HSt) as (F1 & _ & F3 & _).
    destruct (C46_design_vector_is_stored y o1 s1 rho ltac:(congruence)) as (o3 & s3 & rho3 & E & _ & _ & _ & E2 & _).
    rewrite HH in E. injection E as <- <- ->.
    rewrite E2.
    - apply set_region_spec in HH as [(_ & rho4 & _ & [HH|HH])|((z & HH) & _)]; [injection HH as HH _; rewrite HH; exact (conj C HSt)..|discriminate].
    - assert (E0: region_error o1 s1 y rho = 0%R).
      { apply rnrm_zero. rewrite F3. destruct C as (_ & -> & _). intros k Hk. cbv beta. rewrite (Hy k Hk). unfold x0. ring. }
      rewrite E0. assert (0 <= region_norm o1 s1 y)%R by apply rnrm_ge0. assert (0 < 1 / 10 ^ 10)%R by (apply Rdiv_lt_0_compat; [lra|apply pow_lt; lra]). nra. }
  assert (HF: forall o1 s1 o2 s2, I o1 s1 -> cfg o1 o2 -> struct s1 s2 -> I o2 s2).
  { intros o1 s1 o2 s2 [C HSt] C2 S2. split; [eapply cfg_trans; eassumption|eapply struct_trans; eassumption]. }
  assert (HJ: forall o1 s1 o2 s2 r, I o1 s1 -> compute_J e (o1, s1) = ((o2, s2), r) -> I o2 s2).
  { intros o1 s1 o2 s2 r1 HI HH. apply compute_J_frame in HH as (C1 & S1 & _). eapply HF; [exact HI|exact C1|apply struct_same, S1]. }
  assert (HD: forall o1 s1 o2 s2 r, I o1 s1 -> compute_dJ e (o1, s1) = ((o2, s2), r) -> I o2 s2).
  { intros o1 s1 o2 s2 r1 HI HH. apply compute_dJ_frame in HH as (C1 & S1 & _). eapply HF; [exact HI|exact C1|apply struct_same, S1]. }
  assert (HM: forall o1 s1 o2 s2 r, I o1 s1 -> set_source_amplitude e (o1, s1) = ((o2, s2), r) -> I o2 s2).
  { intros o1 s1 o2 s2 r1 HI HH. apply set_amp_frame in HH as (C1 & S1 & _). eapply HF; [exact HI|exact C1|exact S1]. }
  assert (H1: forall c, match c with CallF x | CallG x | CallBack x => forall k, k < len -> x k = x0 k end ->
     forall o1 s1 o2 s2 r, I o1 s1 -> lb_serve e c (o1, s1) = ((o2, s2), r) -> I o2 s2).
  { intros [y|y|y] Hy o1 s1 o2 s2 r1 HI HH; cbn [lb_serve] in HH; unfold bind, modS, getS, ret in HH.
    - destruct (set_design_region y (o1, s1)) as [[o3 s3] [[]|z]] eqn:E1; apply (HS y Hy) in E1; try exact HI; [|injection HH as <- <- <-; exact E1].
      destruct (compute_J e (o3, s3)) as [[o4 s4] [J|z]] eqn:E2; (apply HJ in E2; [|exact E1]); injection HH as <- <- <-; exact E2.
    - destruct (set_design_region y (o1, s1)) as [[o3 s3] [[]|z]] eqn:E1; apply (HS y Hy) in E1; try exact HI; [|injection HH as <- <- <-; exact E1].
      destruct (compute_dJ e (o3, s3)) as [[o4 s4] [J|z]] eqn:E2; (apply HD in E2; [|exact E1]); injection HH as <- <- <-; exact E2.
    - destruct (compute_J e (o1, s1)) as [[o3 s3] [J|z]] eqn:E1; (apply HJ in E1; [|exact HI]); [|injection HH as <- <- <-; exact E1]. cbn [fst snd] in HH.
      assert (E1': I (push_obj J o3) s3) by exact E1.
      destruct (set_design_region y (push_obj J o3, s3)) as [[o4 s4] [[]|z]] eqn:E2; apply (HS y Hy) in E2; try exact E1'; [|injection HH as <- <- <-; exact E2].
      destruct (set_source_amplitude e (o4, s4)) as [[o5 s5] [[]|z]] eqn:E3; (apply HM in E3; [|exact E2]); injection HH as <- <- <-; exact E3. }
  assert (H2: forall l, only_vector x0 len l -> forall o1 s1 o2 s2 r, I o1 s1 -> lb_serve_all e l (o1, s1) = ((o2, s2), r) -> I o2 s2).
  { induction l as [|c l IH]; intros Hl o1 s1 o2 s2 r1 HI HH; cbn [lb_serve_all] in HH; unfold bind, ret in HH; [injection HH as <- <- <-; exact HI|].
    destruct (lb_serve e c (o1, s1)) as [[o3 s3] [q|z]] eqn:E1; apply (H1 c (Hl c (or_introl eq_refl))) in E1; try exact HI; [|injection HH as <- <- <-; exact E1].
    destruct (lb_serve_all e l (o3, s3)) as [[o4 s4] [q2|z]] eqn:E2; (apply IH in E2; [|intros c' Hc'; apply Hl; right; exact Hc'|exact E1]); injection HH as <- <- <-; exact E2. }
  unfold run in H. cbn [fst snd] in H. rewrite Hr in H. unfold run_LBFGS in H. cbn [snd] in H. rewrite Hr in H. unfold bind in H.
  assert (HI0: I (upd_current false o) s) by (split; [repeat split|apply struct_refl]).
  assert (HI: I o' s').
  { destruct (lb_serve_all e calls (upd_current false o, s)) as [[o1 s1] [q|z]] eqn:E1; apply (H2 calls HC) in E1; try exact HI0; [|injection H as <- <- <-; exact E1].
    apply (HS x Hx) in H; [exact H|exact E1]. }
  destruct HI as [_ HSt]. destruct (struct_facts _ _ HSt) as (F1 & F2 & _ & _ & _ & F6 & _). rewrite F1, F2, F6. auto.
Qed.
Example C46_met : exists s0 o, fam_sim "Ez" 5 4 1 1 (fun _ => 1%R) = Ok s0 /\ s_rho (ex_run_sim o s0) = Val ex_rho /\
  design_pixels 20 (o_design o) = [9; 10] /\ s_M (ex_run_sim o s0) = 20 /\
  forall e n step b1 b2 x, exists o' s', run e (MLBFGS [CallF x; CallG x] x) n step b1 b2 (o, ex_run_sim o s0) = ((o', s'), Ok tt).
Proof.
  destruct run_example as (s0 & ob & o & H0 & HO & HOpt & HR & _ & _ & HM & _). exists s0, o. split; [exact H0|]. split; [reflexivity|].
  split; [|split; [exact HM|]].
  - injection HOpt as <-. cbn [o_design]. unfold design_pixels.
    transitivity (List.filter (fun k => Nat.eqb k 9 || Nat.eqb k 10) (List.seq 0 20)); [|reflexivity].
    apply filter_ext. intro k. unfold ex_design. destruct (Nat.eqb k 9); [|destruct (Nat.eqb k 10)]; cbn [orb]; destruct (Req_EM_T _ 1); try reflexivity; lra.
  - intros e n step b1 b2 x. destruct (lb_run_succeeds e [CallF x; CallG x] x n step b1 b2 _ _ _ _ HR ltac:(discriminate)) as (o' & s' & E & _). eauto.
Qed.
