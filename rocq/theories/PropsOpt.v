(** Theorems about the drivers of optimization.py. *)
From Coq Require Import Reals Lra Lia List ZArith Arith Bool String FunctionalExtensionality.
From Coquelicot Require Import Coquelicot.
From Verif Require Import Base Linear MCore MSim Spec PCore PSim PEx PropsCore PropsNl PropsIter MFilter PFilter PTanh PropsFilter MOpt PDiff PGrad PExOpt PropsGrad PropsGradNl PropsGradHz PropsGradTab POpt.
Import ListNotations.
Local Open Scope nat_scope.

(* ------------------------------------------------------------------ *)
(** * C41: densities stay in [0,1] and the permittivity stays in step *)
Definition valid_design (o : opt) (s : sim) : Prop :=
  exists rho, s_rho s = Val rho /\ forall k, k < s_M s ->
    (0 <= rho k <= 1)%R /\ nd_buf (s_eps s) k = rho2eps (s_M s) rho (o_eps_m o) (o_W o) (o_eta o) (o_beta o) k.
Lemma struct_facts s s' : struct s s' -> s_rho s' = s_rho s /\ s_eps s' = s_eps s /\ s_M s' = s_M s /\ s_Nx s' = s_Nx s /\ s_Ny s' = s_Ny s /\
  s_A s' = s_A s /\ s_derivs s' = s_derivs s /\ s_pol s' = s_pol s.
Proof. intros [[v H] _]. unfold same_problem in H. cbn in H. unfold s_M. intuition congruence. Qed.
Lemma valid_frame o s o' s' : cfg o o' -> struct s s' -> valid_design o s -> valid_design o' s'.
Proof.
  intros (_ & _ & C3 & C4 & C5 & C6 & _) HS (rho & Hr & H). destruct (struct_facts _ _ HS) as (F1 & F2 & F3 & _).
  exists rho. rewrite F1, F2, F3, C3, C4, C5, C6. auto.
Qed.
Lemma clip01_range x : (0 <= clip01 x <= 1)%R.
Proof. unfold clip01. destruct (Rlt_dec x 0); destruct (Rlt_dec 1 _); lra. Qed.
Lemma clip01_id x : (0 <= x <= 1)%R -> clip01 x = x.
Proof. intro H. unfold clip01. destruct (Rlt_dec x 0); [lra|]. destruct (Rlt_dec 1 x); lra. Qed.
Lemma update_rho_spec g st o s st' r : update_rho g st (o, s) = (st', r) ->
  (r = Ok tt /\ exists rho, s_rho s = Val rho /\
     st' = (upd_current false o, with_density o s (fun k => clip01 (rho k + o_design o k * st * g k)%R))) \/
  ((exists x, r = Raise x) /\ st' = (o, s)).
Proof.
  unfold update_rho. destruct (s_rho s) as [| |rho] eqn:E; intro H; injection H as <- <-; [right; eauto..|].
  left. split; [reflexivity|]. exists rho. auto.
Qed.
Lemma update_rho_valid g st o s o' s' : update_rho g st (o, s) = ((o', s'), Ok tt) -> valid_design o' s' /\ consistent s' /\ cfg o o' /\ o_current o' = false.
Proof.
  intro H. apply update_rho_spec in H as [(_ & rho & Hr & H)|((x & H) & _)]; [|discriminate]. injection H as -> ->.
  split; [|split; [apply set_eps_consistent|split; [repeat split|reflexivity]]].
  eexists. split; [reflexivity|]. intros k Hk. split; [apply clip01_range|reflexivity].
Qed.
(** one iteration of GD or ADAM up to the update *)
Definition eval_step (e : env) : St (opt * sim) rvec :=
  J <- compute_J e ;;
  modS (fun st => (push_obj J (fst st), snd st)) ;;;
  set_source_amplitude e ;;;
  compute_dJ e.
Lemma bind_assoc {S A B D} (m : St S A) (f : A -> St S B) (g : B -> St S D) s : bind (bind m f) g s = bind m (fun a => bind (f a) g) s.
Proof. unfold bind. destruct (m s) as [s1 [a|x]]; reflexivity. Qed.
Lemma run_GD_step e step n st : run_GD e step (S n) st = (g <- eval_step e ;; update_rho g step ;;; run_GD e step n) st.
Proof.
  cbn [run_GD]. unfold eval_step, bind, modS. destruct (compute_J e st) as [st1 [J|x]]; [|reflexivity].
  destruct (set_source_amplitude e _) as [st2 [[]|x]]; [|reflexivity]. destruct (compute_dJ e st2) as [st3 [g|x]]; reflexivity.
Qed.
Lemma run_ADAM_step e step b1 b2 n i m v st : run_ADAM e step b1 b2 (S n) i m v st =
  (g <- eval_step e ;;
   update_rho (fun k => adam_step b1 b2 (adam_m b1 (m k) (g k)) (adam_v b2 (v k) (g k)) i) step ;;;
   run_ADAM e step b1 b2 n (S i) (fun k => adam_m b1 (m k) (g k)) (fun k => adam_v b2 (v k) (g k))) st.
Proof.
  cbn [run_ADAM]. unfold eval_step, bind, modS. destruct (compute_J e st) as [st1 [J|x]]; [|reflexivity].
  destruct (set_source_amplitude e _) as [st2 [[]|x]]; [|reflexivity]. destruct (compute_dJ e st2) as [st3 [g|x]]; reflexivity.
Qed.
Lemma eval_step_frame e o s o' s' r : eval_step e (o, s) = ((o', s'), r) -> cfg o o' /\ struct s s'.
Proof.
  unfold eval_step, bind, modS. intro H. destruct (compute_J e (o, s)) as [[o1 s1] [J|x]] eqn:E1; apply compute_J_frame in E1 as (C1 & S1 & _).
  2: { injection H as <- <- <-. split; [exact C1|apply struct_same, S1]. }
  apply struct_same in S1. cbn [fst snd] in H.
  destruct (set_source_amplitude e (push_obj J o1, s1)) as [[o2 s2] [[]|x]] eqn:E2; apply set_amp_frame in E2 as (C2 & S2 & _).
  2: { injection H as <- <- <-. split; [eapply cfg_trans; [exact C1|]; exact C2|eapply struct_trans; eassumption]. }
  apply compute_dJ_frame in H as (C3 & S3 & _). apply struct_same in S3.
  split; [eapply cfg_trans; [exact C1|eapply cfg_trans; [|exact C3]; exact C2]|].
  eapply struct_trans; [eassumption|eapply struct_trans; eassumption].
Qed.
Lemma iterate_valid e (f : opt * sim -> (opt * sim) * res unit) : 
  (* f is one of the two loops with n >= 0 steps left *)
  forall step, (exists n, f = run_GD e step n) \/ (exists b1 b2 n i m v, f = run_ADAM e step b1 b2 n i m v) ->
  forall o s o' s' r, f (o, s) = ((o', s'), r) -> valid_design o s -> valid_design o' s' /\ (consistent s -> consistent s').
Proof.
  intros step Hf.
  assert (HC: forall s s', struct s s' -> consistent s -> consistent s').
  { intros s s' [[v H] _] HC. apply (consistent_same (upd_src v s)); [exact H|exact HC]. }
  assert (HG: forall n o s o' s' r, run_GD e step n (o, s) = ((o', s'), r) -> valid_design o s -> valid_design o' s' /\ (consistent s -> consistent s')).
  { induction n as [|n IH]; intros o s o' s' r H HV; [injection H as <- <- <-; auto|]. rewrite run_GD_step in H. unfold bind in H.
    destruct (eval_step e (o, s)) as [[o1 s1] [g|x]] eqn:E1; apply eval_step_frame in E1 as [C1 S1].
    2: { injection H as <- <- <-. split; [eapply valid_frame; eassumption|apply HC, S1]. }
    destruct (update_rho g step (o1, s1)) as [[o2 s2] [[]|x]] eqn:E2.
    - apply update_rho_valid in E2 as (V2 & C2 & _). destruct (IH _ _ _ _ _ H V2) as [I1 I2]. split; [exact I1|]. intros _. apply I2, C2.
    - apply update_rho_spec in E2 as [(E2 & _)|(_ & E2)]; [discriminate|]. injection E2 as -> ->. injection H as <- <- <-.
      split; [eapply valid_frame; eassumption|apply HC, S1]. }
  assert (HA: forall b1 b2 n i m v o s o' s' r, run_ADAM e step b1 b2 n i m v (o, s) = ((o', s'), r) -> valid_design o s -> valid_design o' s' /\ (consistent s -> consistent s')).
  { intros b1 b2. induction n as [|n IH]; intros i m v o s o' s' r H HV; [injection H as <- <- <-; auto|]. rewrite run_ADAM_step in H. unfold bind in H.
    destruct (eval_step e (o, s)) as [[o1 s1] [g|x]] eqn:E1; apply eval_step_frame in E1 as [C1 S1].
    2: { injection H as <- <- <-. split; [eapply valid_frame; eassumption|apply HC, S1]. }
    destruct (update_rho _ step (o1, s1)) as [[o2 s2] [[]|x]] eqn:E2.
    - apply update_rho_valid in E2 as (V2 & C2 & _). destruct (IH _ _ _ _ _ _ _ _ H V2) as [I1 I2]. split; [exact I1|]. intros _. apply I2, C2.
    - apply update_rho_spec in E2 as [(E2 & _)|(_ & E2)]; [discriminate|]. injection E2 as -> ->. injection H as <- <- <-.
      split; [eapply valid_frame; eassumption|apply HC, S1]. }
  destruct Hf as [[n ->]|(b1 & b2 & n & i & m & v & ->)]; eauto.
Qed.
(** whatever the outcome (also when an exception ends the run), a valid design stays valid;
    after at least one completed step the design is valid wherever the run started *)
Theorem C41_density_and_permittivity_stay_valid :
  forall e m n step b1 b2 o s o' s' r, (m = MGD \/ m = MADAM) ->
  run e m n step b1 b2 (o, s) = ((o', s'), r) ->
  (valid_design o s -> valid_design o' s' /\ (consistent s -> consistent s')) /\
  (r = Ok tt -> 0 < n -> valid_design o' s' /\ consistent s').
Proof.
  intros e m n step b1 b2 o s o' s' r Hm H. unfold run in H. cbn [snd fst] in H.
  destruct (s_rho s) as [| |rho] eqn:Er; [injection H as <- <- <-; split; [auto|discriminate]..|].
  assert (HX: forall o1, valid_design o s -> cfg o o1 -> valid_design o1 s).
  { intros o1 HV HC. eapply valid_frame; [exact HC|apply struct_refl|exact HV]. }
  split.
  - intro HV. assert (HV1: valid_design (upd_current false o) s) by (apply HX; [exact HV|repeat split]).
    destruct Hm as [-> | ->].
    + apply (iterate_valid e (run_GD e step n) step (or_introl (ex_intro _ n eq_refl)) _ _ _ _ _ H HV1).
    + apply (iterate_valid e (run_ADAM e step b1 b2 n 0 (fun _ => 0%R) (fun _ => 0%R)) step) in H; [exact H| |exact HV1]. right. do 6 eexists. reflexivity.
  - intros -> Hn. destruct n as [|n]; [lia|]. destruct Hm as [-> | ->]; [rewrite run_GD_step in H|rewrite run_ADAM_step in H]; unfold bind in H;
    (destruct (eval_step e _) as [[o1 s1] [g|x]] eqn:E1; [|discriminate]);
    (match type of H with context [update_rho ?g ?st ?x] => destruct (update_rho g st x) as [[o2 s2] [[]|x']] eqn:E2 end; [|discriminate]);
    apply update_rho_valid in E2 as (V2 & C2 & _).
    + apply iterate_valid with (e := e) (step := step) in H; [|left; eexists; reflexivity|exact V2]. tauto.
    + apply iterate_valid with (e := e) (step := step) in H; [|right; do 6 eexists; reflexivity|exact V2]. tauto.
Qed.

(** Runs that do not raise: linear objectives of Ez polarization without index-shift limit. *)
Definition lin_ready (J : pyfun) (args : list obj_arg) (o : opt) (s : sim) : Prop :=
  s_pol s = PolEz /\ nd_size (s_src s) = s_M s /\ (exists rho, s_rho s = Val rho) /\ o_objective o = set_J J args /\
  List.Forall lin_Ez_arg args /\ List.length args = pf_arity J /\ o_max_shift o = None.
Lemma lin_ready_frame J args o s o' s' : cfg o o' -> same_tidy s s' -> lin_ready J args o s -> lin_ready J args o' s'.
Proof.
  intros (C1 & _ & _ & _ & _ & _ & _ & _ & C9) [HS _] (H1 & H2 & H3 & H4 & H5 & H6 & H7).
  destruct (same_rhs _ _ HS) as (_ & EM & ES & EP). destruct HS as (_ & _ & _ & _ & _ & _ & _ & E8 & _ & _ & _ & _ & _ & _ & _ & E16 & _).
  unfold lin_ready. rewrite C1, C9, EM, EP, E8, E16. auto 10.
Qed.
Lemma lin_args_new args : List.Forall lin_Ez_arg args -> forall a, In a args -> exists c nl, new_obj_arg c nl = Ok a.
Proof.
  intros H a Ha. rewrite Forall_forall in H. destruct (H a Ha) as [[HG HE] Hn]. destruct a as [c nl g]. cbn in *. subst nl g.
  destruct HE as [-> | [-> | ->]]; [exists "Ez"%string, false|exists "Hx"%string, false|exists "Hy"%string, false]; reflexivity.
Qed.
Lemma lin_no_grad args : List.Forall lin_Ez_arg args -> List.find no_grad args = None.
Proof.
  intro H. destruct (List.find no_grad args) as [a|] eqn:E; [|reflexivity]. apply List.find_some in E as [Ha E].
  rewrite Forall_forall in H. destruct (H a Ha) as [_ Hn]. unfold no_grad in E. rewrite Hn in E. discriminate.
Qed.
Lemma eval_step_ok e J args o s : lin_ready J args o s -> o_current o = false ->
  exists o' s' g, eval_step e (o, s) = ((o', s'), Ok g) /\ lin_ready J args o' s'.
Proof.
  intros HR Hc. assert (HR' := HR). destruct HR' as (H1 & H2 & (rho & H3) & H4 & H5 & H6 & H7).
  unfold eval_step, bind, modS. assert (HJ := compute_J_lin e o s J args Hc H4 H1 H2 H5 H6). rewrite HJ.
  assert (HF := compute_J_frame _ _ _ _ _ _ HJ). destruct HF as (C1 & S1 & _). clear HJ.
  set (s1 := solved e s) in *. set (o1 := upd_arglist _ o) in *. set (v := pf_val J _). cbn [fst snd].
  assert (R1: lin_ready J args (push_obj v o1) s1) by (eapply lin_ready_frame; [|exact S1|exact HR]; exact C1).
  destruct (set_source_amplitude e (push_obj v o1, s1)) as [[o2 s2] r2] eqn:E2.
  assert (E2' := E2). apply set_amp_frame in E2' as (C2 & _ & _ & _ & K2 & L2). destruct L2 as [-> ->]; [exact H7|].
  specialize (K2 eq_refl).
  assert (R2: lin_ready J args o2 s1) by (eapply lin_ready_frame; [exact C2|apply same_tidy_refl|exact R1]).
  assert (R2' := R2). destruct R2' as (G1 & G2 & (rho1 & G3) & G4 & _).
  assert (HJ := compute_J_lin e o2 s1 J args K2 G4 G1 G2 H5 H6).
  assert (HO: Objective J args = Ok (o_objective o2)) by (unfold Objective; rewrite H6, Nat.eqb_refl, G4; reflexivity).
  assert (HT := gradient_table e o2 s1 rho1 J args _ _ _ HO eq_refl K2 G3 (lin_args_new args H5) HJ).
  rewrite lin_no_grad in HT by exact H5. destruct HT as [g HT].
  destruct (compute_dJ e (o2, s1)) as [[o3 s3] r3] eqn:E3. cbn [snd] in HT. subst r3.
  exists o3, s3, g. split; [reflexivity|]. apply compute_dJ_frame in E3 as (C3 & S3 & _). eapply lin_ready_frame; eassumption.
Qed.
Lemma update_rho_ok J args g st o s : lin_ready J args o s -> exists o' s', update_rho g st (o, s) = ((o', s'), Ok tt) /\ lin_ready J args o' s' /\ o_current o' = false.
Proof.
  intros (H1 & H2 & (rho & H3) & H4 & H5 & H6 & H7). unfold update_rho. rewrite H3.
  do 2 eexists. split; [reflexivity|]. split; [|reflexivity]. split; [exact H1|]. split; [exact H2|]. split; [eexists; reflexivity|]. repeat (split; [assumption|]). assumption.
Qed.
(** a run of GD or ADAM with any number of steps succeeds *)
Lemma run_succeeds e m n step b1 b2 J args o s : m = MGD \/ m = MADAM -> lin_ready J args o s ->
  exists o' s', run e m n step b1 b2 (o, s) = ((o', s'), Ok tt) /\ lin_ready J args o' s'.
Proof.
  intros Hm HR. unfold run. cbn [snd fst]. destruct HR as (H1 & H2 & (rho & H3) & H4). rewrite H3.
  assert (HR: lin_ready J args (upd_current false o) s) by (split; [exact H1|split; [exact H2|split; [exists rho; exact H3|exact H4]]]).
  assert (Hc: o_current (upd_current false o) = false) by reflexivity.
  revert HR Hc. generalize (upd_current false o). clear H3 H4 H1 H2 o. destruct Hm as [-> | ->].
  - revert s. induction n as [|n IH]; intros s o HR Hc; [exists o, s; auto|]. 
    destruct (eval_step_ok e J args o s HR Hc) as (o1 & s1 & g & E1 & R1).
    destruct (update_rho_ok J args g step o1 s1 R1) as (o2 & s2 & E2 & R2 & Hc2).
    destruct (IH s2 o2 R2 Hc2) as (o3 & s3 & E3 & R3). exists o3, s3. split; [|exact R3].
    rewrite run_GD_step. unfold bind. rewrite E1, E2. exact E3.
  - assert (HA: forall n v mm i s o, lin_ready J args o s -> o_current o = false ->
       exists o' s', run_ADAM e step b1 b2 n i mm v (o, s) = ((o', s'), Ok tt) /\ lin_ready J args o' s').
    2: { intros o HR Hc. apply HA; assumption. } clear n s.
    induction n as [|n IH]; intros v mm i s o HR Hc; [exists o, s; auto|]. 
    destruct (eval_step_ok e J args o s HR Hc) as (o1 & s1 & g & E1 & R1).
    destruct (update_rho_ok J args (fun k => adam_step b1 b2 (adam_m b1 (mm k) (g k)) (adam_v b2 (v k) (g k)) i) step o1 s1 R1) as (o2 & s2 & E2 & R2 & Hc2).
    destruct (IH (fun k => adam_v b2 (v k) (g k)) (fun k => adam_m b1 (mm k) (g k)) (S i) s2 o2 R2 Hc2) as (o3 & s3 & E3 & R3). exists o3, s3. split; [|exact R3].
    rewrite run_ADAM_step. unfold bind. rewrite E1, E2. exact E3.
Qed.

(** a concrete optimization: 5 x 4 pixels with PML, two design pixels, total intensity of Ez *)
Definition ex_run_sim (o : opt) (s0 : sim) : sim := with_density o (upd_src (mkNd 5 4 ex_src) s0) ex_rho.
Lemma run_example :
  exists s0 ob o, fam_sim "Ez" 5 4 1 1 (fun _ => 1%R) = Ok s0 /\
  Objective (intensity 20 1) [Ez_lin] = Ok ob /\ Optimization ob s0 ex_design 5 None (1 / 2) 10 "linear" "hybrid" None = Ok o /\
  lin_ready (intensity 20 1) [Ez_lin] o (ex_run_sim o s0) /\ valid_design o (ex_run_sim o s0) /\ consistent (ex_run_sim o s0) /\
  s_M (ex_run_sim o s0) = 20 /\ nonsingular 20 (s_A (ex_run_sim o s0)).
Proof.
  destruct (fam_sim_ok "Ez" 5 4 1 1 (fun _ => 1%R) (or_introl eq_refl)) as [s0 H0].
  exists s0. eexists. eexists. split; [exact H0|]. split; [reflexivity|]. split; [reflexivity|].
  match goal with |- lin_ready _ _ ?o _ /\ _ => set (oo := o) end.
  assert (HR: forall k, (0 <= ex_rho k <= 1)%R).
  { intro k. unfold ex_rho. destruct (Nat.eqb k 9); [lra|]. destruct (Nat.eqb k 10); lra. }
  destruct (fam_facts 5 4 1 1 (fun _ => 1%R) s0 oo ex_src ex_rho H0 ltac:(lia) ltac:(lia)) as (F1 & F2 & F3 & F4 & F5 & F6 & F7 & _).
  { intros k Hk. apply fam_eps_ge1; try (cbn; lra); [exact Hk|apply HR]. }
  change (with_density oo (upd_src (mkNd 5 4 ex_src) s0) ex_rho) with (ex_run_sim oo s0) in *.
  split; [|split; [|split; [exact F2|split; [exact F7|rewrite F7 in F4; exact F4]]]].
  - split; [exact F1|]. split; [exact F3|]. split; [exists ex_rho; exact F5|]. split; [reflexivity|]. split; [|split; reflexivity].
    constructor; [|constructor]. split; [split; [reflexivity|left; reflexivity]|reflexivity].
  - exists ex_rho. split; [exact F5|]. intros k Hk. split; [apply HR|]. apply F6, Hk.
Qed.
Example C41_met :
  exists s0 o, fam_sim "Ez" 5 4 1 1 (fun _ => 1%R) = Ok s0 /\ let s := ex_run_sim o s0 in
  valid_design o s /\ consistent s /\
  forall e m n step b1 b2, m = MGD \/ m = MADAM -> exists o' s', run e m n step b1 b2 (o, s) = ((o', s'), Ok tt).
Proof.
  destruct run_example as (s0 & ob & o & H0 & _ & _ & HR & HV & HC & _). exists s0, o. split; [exact H0|]. split; [exact HV|]. split; [exact HC|].
  intros e m n step b1 b2 Hm. destruct (run_succeeds e m n step b1 b2 _ _ _ _ Hm HR) as (o' & s' & H & _). eauto.
Qed.

(* ------------------------------------------------------------------ *)
(** ** Invariants of all drivers *)
Lemma set_region_spec x o s st' r : set_design_region x (o, s) = (st', r) ->
  (r = Ok tt /\ exists rho, s_rho s = Val rho /\
     (st' = (upd_current false o, with_density o s (insert_design (o_design o) x rho)) \/ st' = (upd_current false o, s))) \/
  ((exists x, r = Raise x) /\ st' = (o, s)).
Proof.
  unfold set_design_region. destruct (s_rho s) as [| |rho] eqn:E; intro H; [injection H as <- <-; right; eauto..|].
  left. destruct (xgt _ _); injection H as <- <-; (split; [reflexivity|]); exists rho; auto.
Qed.
Section Inv.
Variable P : opt -> sim -> Prop.
Hypothesis Hfr : forall o s o' s', cfg o o' -> struct s s' -> P o s -> P o' s'.
Lemma loops_inv e step : 
  (forall o s rho g, s_rho s = Val rho -> P o s -> P o (with_density o s (fun k => clip01 (rho k + o_design o k * step * g k)%R))) ->
  (forall n o s o' s' r, run_GD e step n (o, s) = ((o', s'), r) -> P o s -> P o' s') /\
  (forall b1 b2 n i m v o s o' s' r, run_ADAM e step b1 b2 n i m v (o, s) = ((o', s'), r) -> P o s -> P o' s').
Proof.
  intro Hup.
  assert (HU: forall g o s o' s' r, update_rho g step (o, s) = ((o', s'), r) -> P o s -> P o' s').
  { intros g o s o' s' r H HP. apply update_rho_spec in H as [(_ & rho & Hr & H)|(_ & H)]; injection H as -> ->; [|exact HP].
    eapply Hfr; [| apply struct_refl |apply Hup; eassumption]. repeat split. }
  split.
  - induction n as [|n IH]; intros o s o' s' r H HP; [injection H as <- <- <-; auto|]. rewrite run_GD_step in H. unfold bind in H.
    destruct (eval_step e (o, s)) as [[o1 s1] [g|x]] eqn:E1; apply eval_step_frame in E1 as [C1 S1].
    2: { injection H as <- <- <-. eapply Hfr; eassumption. }
    destruct (update_rho g step (o1, s1)) as [[o2 s2] [[]|x]] eqn:E2; (apply HU in E2; [|eapply Hfr; eassumption]).
    + eapply IH; eassumption.
    + injection H as <- <- <-. exact E2.
  - intros b1 b2. induction n as [|n IH]; intros i m v o s o' s' r H HP; [injection H as <- <- <-; auto|]. rewrite run_ADAM_step in H. unfold bind in H.
    destruct (eval_step e (o, s)) as [[o1 s1] [g|x]] eqn:E1; apply eval_step_frame in E1 as [C1 S1].
    2: { injection H as <- <- <-. eapply Hfr; eassumption. }
    destruct (update_rho _ step (o1, s1)) as [[o2 s2] [[]|x]] eqn:E2; (apply HU in E2; [|eapply Hfr; eassumption]).
    + eapply IH; eassumption.
    + injection H as <- <- <-. exact E2.
Qed.
Lemma lb_inv e :
  (forall o s rho x, s_rho s = Val rho -> P o s -> P o (with_density o s (insert_design (o_design o) x rho))) ->
  (forall x o s o' s' r, set_design_region x (o, s) = ((o', s'), r) -> P o s -> P o' s') /\
  (forall c o s o' s' r, lb_serve e c (o, s) = ((o', s'), r) -> P o s -> P o' s') /\
  (forall l o s o' s' r, lb_serve_all e l (o, s) = ((o', s'), r) -> P o s -> P o' s').
Proof.
  intro Hin.
  assert (HS: forall x o s o' s' r, set_design_region x (o, s) = ((o', s'), r) -> P o s -> P o' s').
  { intros x o s o' s' r H HP. apply set_region_spec in H as [(_ & rho & Hr & [H|H])|(_ & H)]; injection H as -> ->.
    - eapply Hfr; [| apply struct_refl |apply Hin; eassumption]. repeat split.
    - eapply Hfr; [| apply struct_refl |exact HP]. repeat split.
    - exact HP. }
  assert (HJ: forall o s o' s' r, compute_J e (o, s) = ((o', s'), r) -> P o s -> P o' s').
  { intros o s o' s' r H HP. apply compute_J_frame in H as (C & S & _). eapply Hfr; [exact C|apply struct_same, S|exact HP]. }
  assert (HD: forall o s o' s' r, compute_dJ e (o, s) = ((o', s'), r) -> P o s -> P o' s').
  { intros o s o' s' r H HP. apply compute_dJ_frame in H as (C & S & _). eapply Hfr; [exact C|apply struct_same, S|exact HP]. }
  assert (HA: forall o s o' s' r, set_source_amplitude e (o, s) = ((o', s'), r) -> P o s -> P o' s').
  { intros o s o' s' r H HP. apply set_amp_frame in H as (C & S & _). eapply Hfr; [exact C|exact S|exact HP]. }
  assert (HC: forall c o s o' s' r, lb_serve e c (o, s) = ((o', s'), r) -> P o s -> P o' s').
  { intros [x|x|x] o s o' s' r H HP; cbn [lb_serve] in H; unfold bind, modS, getS, ret in H.
    - destruct (set_design_region x (o, s)) as [[o1 s1] [[]|y]] eqn:E1; (apply HS in E1; [|exact HP]); [|injection H as <- <- <-; exact E1].
      destruct (compute_J e (o1, s1)) as [[o2 s2] [J|y]] eqn:E2; (apply HJ in E2; [|exact E1]); injection H as <- <- <-; exact E2.
    - destruct (set_design_region x (o, s)) as [[o1 s1] [[]|y]] eqn:E1; (apply HS in E1; [|exact HP]); [|injection H as <- <- <-; exact E1].
      destruct (compute_dJ e (o1, s1)) as [[o2 s2] [J|y]] eqn:E2; (apply HD in E2; [|exact E1]); injection H as <- <- <-; exact E2.
    - destruct (compute_J e (o, s)) as [[o1 s1] [J|y]] eqn:E1; (apply HJ in E1; [|exact HP]); [|injection H as <- <- <-; exact E1].
      cbn [fst snd] in H. assert (E1': P (push_obj J o1) s1) by (eapply Hfr; [| apply struct_refl |exact E1]; repeat split).
      destruct (set_design_region x (push_obj J o1, s1)) as [[o2 s2] [[]|y]] eqn:E2; (apply HS in E2; [|exact E1']); [|injection H as <- <- <-; exact E2].
      destruct (set_source_amplitude e (o2, s2)) as [[o3 s3] [[]|y]] eqn:E3; (apply HA in E3; [|exact E2]); injection H as <- <- <-; exact E3. }
  split; [exact HS|]. split; [exact HC|].
  induction l as [|c l IH]; intros o s o' s' r H HP; cbn [lb_serve_all] in H; unfold bind, ret in H; [injection H as <- <- <-; exact HP|].
  destruct (lb_serve e c (o, s)) as [[o1 s1] [q|y]] eqn:E1; (apply HC in E1; [|exact HP]); [|injection H as <- <- <-; exact E1].
  destruct (lb_serve_all e l (o1, s1)) as [[o2 s2] [os|y]] eqn:E2; (apply IH in E2; [|exact E1]); injection H as <- <- <-; exact E2.
Qed.
Lemma run_inv e m n step b1 b2 o s o' s' r :
  (m = MGD \/ m = MADAM -> forall o s rho g, s_rho s = Val rho -> P o s -> P o (with_density o s (fun k => clip01 (rho k + o_design o k * step * g k)%R))) ->
  ((exists calls x, m = MLBFGS calls x) -> forall o s rho x, s_rho s = Val rho -> P o s -> P o (with_density o s (insert_design (o_design o) x rho))) ->
  run e m n step b1 b2 (o, s) = ((o', s'), r) -> P o s -> P o' s'.
Proof.
  intros Hup Hin H HP. unfold run in H. cbn [fst snd] in H. destruct (s_rho s) eqn:Er; [injection H as <- <- <-; exact HP..|].
  assert (HP1: P (upd_current false o) s) by (eapply Hfr; [| apply struct_refl |exact HP]; repeat split).
  destruct m as [calls x| | |].
  - destruct (lb_inv e (Hin ltac:(eauto))) as (L1 & L2 & L3).
    unfold run_LBFGS in H. cbn [snd] in H. rewrite Er in H. unfold bind in H.
    destruct (lb_serve_all e calls _) as [[o1 s1] [os|y]] eqn:E1; (apply L3 in E1; [|exact HP1]); [|injection H as <- <- <-; exact E1].
    eapply L1; eassumption.
  - eapply (proj1 (loops_inv e step (Hup ltac:(auto)))); eassumption.
  - eapply (proj2 (loops_inv e step (Hup ltac:(auto)))); eassumption.
  - injection H as <- <- <-. exact HP1.
Qed.
End Inv.

(* ------------------------------------------------------------------ *)
(** * C42: the structure outside the design region *)
(** density: unchanged at every pixel outside, for all methods and outcomes; GD and ADAM
    clip, so there the density must have been in [0,1] *)
Theorem C42_density_outside_kept :
  forall e m n step b1 b2 o s o' s' r rho k,
  run e m n step b1 b2 (o, s) = ((o', s'), r) -> s_rho s = Val rho -> o_design o k = 0%R ->
  (m = MGD \/ m = MADAM -> (0 <= rho k <= 1)%R) ->
  exists rho', s_rho s' = Val rho' /\ rho' k = rho k.
Proof.
  intros e m n step b1 b2 o s o' s' r rho k H Hr Hd H01.
  set (Q := fun o s => o_design o k = 0%R /\ exists rho', s_rho s = Val rho' /\ rho' k = rho k).
  cut (Q o' s'); [intro HI; apply HI|].
  refine (run_inv Q _ e m n step b1 b2 o s o' s' r _ _ H _); unfold Q; [| | |split; [exact Hd|exists rho; auto]].
  - intros o1 s1 o2 s2 (_ & C2 & _) HS (I1 & I2). destruct (struct_facts _ _ HS) as (F1 & _). rewrite C2, F1. auto.
  - intros Hm o1 s1 rho1 g Hr1 (I1 & rho2 & I2 & I3). split; [exact I1|]. eexists. split; [reflexivity|]. cbv beta.
    rewrite Hr1 in I2. injection I2 as <-. rewrite I1, I3. replace (rho k + 0 * step * g k)%R with (rho k) by ring. apply clip01_id, H01, Hm.
  - intros _ o1 s1 rho1 x Hr1 (I1 & rho2 & I2 & I3). split; [exact I1|]. eexists. split; [reflexivity|].
    rewrite Hr1 in I2. injection I2 as <-. unfold insert_design. rewrite I1. destruct (Req_EM_T 0 1); [lra|exact I3].
Qed.
(** permittivity outside: either as it was, or the projection of the density there *)
Definition projected (o : opt) (r : R) : R := rhob2eps (rhot2rhob r (o_eta o) (o_beta o)) (o_eps_m o).
Theorem C42_permittivity_outside_projected :
  forall e m n step b1 b2 o s o' s' r rho k,
  run e m n step b1 b2 (o, s) = ((o', s'), r) -> s_rho s = Val rho -> k < s_M s -> o_design o k = 0%R ->
  (m = MGD \/ m = MADAM -> (0 <= rho k <= 1)%R) ->
  (* the filter matrix has the row of the identity at k: C42_filter_rows *)
  (forall f, rho2rhot (s_M s) f (o_W o) k = f k) ->
  nd_buf (s_eps s') k = nd_buf (s_eps s) k \/ nd_buf (s_eps s') k = projected o (rho k).
Proof.
  intros e m n step b1 b2 o s o' s' r rho k H Hr Hk Hd H01 HW.
  set (Q := fun o1 s1 => cfg o o1 /\ s_M s1 = s_M s /\ (exists rho', s_rho s1 = Val rho' /\ rho' k = rho k) /\
      (nd_buf (s_eps s1) k = nd_buf (s_eps s) k \/ nd_buf (s_eps s1) k = projected o (rho k))).
  cut (Q o' s'); [intro HI; apply HI|].
  assert (HE: forall o1 s1 f, cfg o o1 -> s_M s1 = s_M s -> f k = rho k -> nd_buf (s_eps (with_density o1 s1 f)) k = projected o (rho k)).
  { intros o1 s1 f (_ & _ & C3 & C4 & C5 & C6 & _) HM Hf. cbn [with_density set_eps s_eps opt_eps nd_buf]. unfold rho2eps, projected.
    rewrite C3, C4, C5, C6. change (s_M (upd_rho _ s1)) with (s_M s1). rewrite HM, HW, Hf. reflexivity. }
  refine (run_inv Q _ e m n step b1 b2 o s o' s' r _ _ H _); unfold Q; [| | |split; [apply cfg_refl|split; [reflexivity|split; [eauto|auto]]]].
  - intros o1 s1 o2 s2 C HS (I1 & I2 & I3 & I4). destruct (struct_facts _ _ HS) as (F1 & F2 & F3 & _). rewrite F1, F2, F3.
    split; [eapply cfg_trans; eassumption|auto].
  - intros Hm o1 s1 rho1 g Hr1 (I1 & I2 & (rho2 & I3 & I4) & _). rewrite Hr1 in I3. injection I3 as <-.
    set (f := fun k => clip01 _). assert (Hf: f k = rho k).
    { unfold f. destruct I1 as (_ & -> & _). rewrite Hd, I4. replace (rho k + 0 * step * g k)%R with (rho k) by ring. apply clip01_id, H01, Hm. }
    split; [exact I1|]. split; [exact I2|]. split; [exists f; auto|]. right. apply HE; assumption.
  - intros _ o1 s1 rho1 x Hr1 (I1 & I2 & (rho2 & I3 & I4) & _). rewrite Hr1 in I3. injection I3 as <-.
    set (f := insert_design _ _ _). assert (Hf: f k = rho k).
    { unfold f, insert_design. destruct I1 as (_ & -> & _). rewrite Hd. destruct (Req_EM_T 0 1); [lra|exact I4]. }
    split; [exact I1|]. split; [exact I2|]. split; [exists f; auto|]. right. apply HE; assumption.
Qed.
(** every Optimization, with or without filter, has such rows *)
Theorem C42_filter_rows :
  forall ob s design eps_m Rr eta beta fs ns ms o k f,
  Optimization ob s design eps_m Rr eta beta fs ns ms = Ok o -> k < nd_nx (s_eps s) * nd_ny (s_eps s) -> o_design o k = 0%R ->
  rho2rhot (nd_nx (s_eps s) * nd_ny (s_eps s)) f (o_W o) k = f k.
Proof.
  intros ob s design eps_m Rr eta beta fs ns ms o k f H Hk Hd. unfold Optimization in H. destruct Rr as [r|].
  - destruct (get_W _ _ _ _ _) as [W|] eqn:EW; [|discriminate]. injection H as <-. cbn in *.
    eapply C18_filter_keeps_density_outside_design_region; eassumption.
  - injection H as <-. apply rho2rhot_rId, Hk.
Qed.
(** In particular the permittivity outside is kept wherever the structure is one of the two
    materials, or already in step with the density. *)
Theorem C42_two_material_surroundings_kept_partial :
  forall e m n step b1 b2 o s o' s' r rho k,
  run e m n step b1 b2 (o, s) = ((o', s'), r) -> s_rho s = Val rho -> k < s_M s -> o_design o k = 0%R ->
  (0 < o_beta o)%R -> (0 <= o_eta o <= 1)%R ->
  (forall f, rho2rhot (s_M s) f (o_W o) k = f k) ->
  (nd_buf (s_eps s) k = 1%R /\ rho k = 0%R) \/ (nd_buf (s_eps s) k = o_eps_m o /\ rho k = 1%R) ->
  nd_buf (s_eps s') k = nd_buf (s_eps s) k.
Proof.
  intros e m n step b1 b2 o s o' s' r rho k H Hr Hk Hd Hb He HW HM.
  destruct (C21_projection_endpoints_and_monotone (o_eta o) (o_beta o) Hb He) as (P0 & P1 & _).
  destruct (C42_permittivity_outside_projected e m n step b1 b2 o s o' s' r rho k H Hr Hk Hd) as [E|E]; [|exact HW|exact E|].
  { destruct HM as [[_ ->]|[_ ->]]; lra. }
  rewrite E. unfold projected, rhob2eps. destruct HM as [[-> ->]|[-> ->]]; rewrite ?P0, ?P1; ring.
Qed.
(** the converse: after at least one completed GD or ADAM step the permittivity outside is the
    projection of the density, so it is kept exactly where it already was that projection *)
Theorem C42_permittivity_outside_iff :
  forall e m n step b1 b2 o s o' s' rho k,
  run e m (S n) step b1 b2 (o, s) = ((o', s'), Ok tt) -> m = MGD \/ m = MADAM -> s_rho s = Val rho -> k < s_M s -> o_design o k = 0%R ->
  (0 <= rho k <= 1)%R -> (forall f, rho2rhot (s_M s) f (o_W o) k = f k) ->
  (nd_buf (s_eps s') k = nd_buf (s_eps s) k <-> nd_buf (s_eps s) k = projected o (rho k)).
Proof.
  intros e m n step b1 b2 o s o' s' rho k H Hm Hr Hk Hd H01 HW.
  destruct (C42_density_outside_kept _ _ _ _ _ _ _ _ _ _ _ rho k H Hr Hd (fun _ => H01)) as (rho' & Hr' & Hk').
  destruct (C41_density_and_permittivity_stay_valid _ _ _ _ _ _ _ _ _ _ _ Hm H) as [_ HV]. destruct (HV eq_refl ltac:(lia)) as [(rho2 & Hr2 & HV2) _].
  rewrite Hr' in Hr2. injection Hr2 as <-.
  set (Q := fun o1 s1 => cfg o o1 /\ s_M s1 = s_M s).
  assert (HI: Q o' s').
  { refine (run_inv Q _ e m (S n) step b1 b2 o s o' s' (Ok tt) _ _ H _); unfold Q; [| | |split; [apply cfg_refl|reflexivity]].
    - intros o1 s1 o2 s2 C HS (I1 & I2). destruct (struct_facts _ _ HS) as (_ & _ & F3 & _). split; [eapply cfg_trans; eassumption|congruence].
    - intros _ o1 s1 rho1 g _ I. exact I.
    - intros _ o1 s1 rho1 g _ I. exact I. }
  destruct HI as ((_ & _ & C3 & C4 & C5 & C6 & _) & HM).
  assert (E: nd_buf (s_eps s') k = projected o (rho k)).
  { rewrite (proj2 (HV2 k ltac:(rewrite HM; exact Hk))). unfold rho2eps, projected. rewrite HM, C3, C4, C5, C6, HW, Hk'. reflexivity. }
  rewrite E. split; intro; congruence.
Qed.
(** the property as stated *)
Definition C42_property : Prop :=
  forall e ob s0 design eps_m Rr eta beta fs ns ms o s m n step b1 b2 o' s' r rho k,
  Optimization ob s0 design eps_m Rr eta beta fs ns ms = Ok o -> s_eps s = s_eps s0 -> (0 < beta)%R -> (0 <= eta <= 1)%R ->
  run e m n step b1 b2 (o, s) = ((o', s'), r) -> s_rho s = Val rho -> k < s_M s -> design k = 0%R -> (0 <= rho k <= 1)%R ->
  nd_buf (s_eps s') k = nd_buf (s_eps s) k.
(** background 2, density initialised from the permittivity, one step of gradient descent:
    the permittivity of the background changes *)
Theorem C42_background_refuted : ~ C42_property.
Proof.
  intro HP. destruct (fam_sim_ok "Ez" 5 4 1 1 (fun _ => 2%R) (or_introl eq_refl)) as [s00 H0].
  set (s0 := init_design_region (fun _ => 0%R) ex_design 5 "halfway" (upd_src (mkNd 5 4 ex_src) s00)).
  set (ob := set_J (intensity 20 1) [Ez_lin]).
  set (o := mkOpt ob ex_design rId (1 / 2) 10 5 "linear" "hybrid" None [] [] false None).
  assert (HF := Simulation_fields _ _ _ _ _ _ _ H0). destruct HF as (E1 & E2 & E3 & E4 & E5 & E6 & E7 & E8 & P1 & P2 & E9 & EP & _ & _).
  cbn [nd_nx nd_ny] in *. specialize (EP eq_refl).
  assert (Heps: nd_buf (s_eps s0) 0 = 2%R).
  { unfold s0, init_design_region, init_eps. change (String.eqb "halfway" "full") with false. change (String.eqb "halfway" "halfway") with true. cbn.
    rewrite E5. cbn. destruct (Req_EM_T 0 1); [lra|reflexivity]. }
  assert (HM: s_M s0 = 20).
  { unfold s0, init_design_region, init_eps. change (String.eqb "halfway" "full") with false. change (String.eqb "halfway" "halfway") with true. cbn. rewrite E5. reflexivity. }
  assert (HR: lin_ready (intensity 20 1) [Ez_lin] o s0).
  { split; [exact EP|]. split; [rewrite HM; reflexivity|]. split; [eexists; reflexivity|]. split; [reflexivity|]. split; [|split; reflexivity].
    constructor; [|constructor]. split; [split; [reflexivity|left; reflexivity]|reflexivity]. }
  destruct (run_succeeds ex_env MGD 1 1 0 0 _ _ _ _ (or_introl eq_refl) HR) as (o' & s' & HRun & _).
  assert (Hrho: exists rho, s_rho s0 = Val rho /\ rho 0 = (1 / 4)%R).
  { eexists. split; [reflexivity|]. cbv beta. unfold eps2rho.
    match goal with |- ((nd_buf (s_eps ?x) 0 - 1) / _ = _)%R => assert (E: nd_buf (s_eps x) 0 = 2%R) by exact Heps; rewrite E end. field. }
  destruct Hrho as (rho & Hr & Hr0).
  assert (HK: nd_buf (s_eps s') 0 = nd_buf (s_eps s0) 0).
  { eapply (HP ex_env ob s0 ex_design 5%R None (1 / 2)%R 10%R "linear"%string "hybrid"%string None o s0 MGD 1 1%R 0%R 0%R o' s' (Ok tt) rho 0);
      try reflexivity; try lra; try assumption. rewrite HM; lia. }
  assert (HI := C42_permittivity_outside_iff ex_env MGD 0 1 0 0 o s0 o' s' rho 0 HRun (or_introl eq_refl) Hr ltac:(rewrite HM; lia) eq_refl ltac:(lra)).
  apply HI in HK.
  2: { intro f. apply rho2rhot_rId. rewrite HM; lia. }
  rewrite Heps, Hr0 in HK. unfold projected, rhob2eps, rhot2rhob in HK. cbn [o o_eta o_beta o_eps_m] in HK.
  replace (10 * (1 / 2))%R with 5%R in HK by lra. replace (10 * (1 - 1 / 2))%R with 5%R in HK by lra.
  replace (10 * (1 / 4 - 1 / 2))%R with (- (5 / 2))%R in HK by lra. rewrite tanh_opp in HK.
  assert (HT5: (0 < tanh 5 < 1)%R).
  { split; [apply tanh_pos; lra|]. rewrite tanh_exp. assert (P := exp_pos (2 * 5)).
    assert (0 < 2 / (exp (2 * 5) + 1))%R by (apply Rdiv_lt_0_compat; lra). lra. }
  assert (HT: (1 / 2 < tanh (5 / 2))%R).
  { rewrite tanh_exp. replace (2 * (5 / 2))%R with 5%R by lra. assert (Q := exp_ineq1 5 ltac:(lra)).
    assert (2 / (exp 5 + 1) < 1 / 2)%R; [|lra]. apply (Rmult_lt_reg_r (exp 5 + 1)); [lra|].
    unfold Rdiv at 1. rewrite Rmult_assoc, Rinv_l by lra. lra. }
  apply (f_equal (fun x => (x * (tanh 5 + tanh 5))%R)) in HK.
  replace ((1 + (tanh 5 + - tanh (5 / 2)) / (tanh 5 + tanh 5) * (5 - 1)) * (tanh 5 + tanh 5))%R with ((tanh 5 + tanh 5) + (tanh 5 - tanh (5 / 2)) * 4)%R in HK by (field; lra).
  lra.
Qed.
Example C42_met :
  exists s0 ob o, fam_sim "Ez" 5 4 1 1 (fun _ => 1%R) = Ok s0 /\
  Objective (intensity 20 1) [Ez_lin] = Ok ob /\ Optimization ob s0 ex_design 5 None (1 / 2) 10 "linear" "hybrid" None = Ok o /\
  let s := ex_run_sim o s0 in
  (0 < o_beta o)%R /\ (0 <= o_eta o <= 1)%R /\ o_design o 7 = 0%R /\ 7 < s_M s /\ nd_buf (s_eps s) 7 = 1%R /\ s_rho s = Val ex_rho /\ ex_rho 7 = 0%R /\
  (forall f, rho2rhot (s_M s) f (o_W o) 7 = f 7) /\
  forall e m n step b1 b2, m = MGD \/ m = MADAM -> exists o' s', run e m n step b1 b2 (o, s) = ((o', s'), Ok tt).
Proof.
  destruct run_example as (s0 & ob & o & H0 & H1 & H2 & HR & HV & HC & HM & _). exists s0, ob, o.
  assert (H2' := H2). injection H2 as <-.
  split; [exact H0|]. split; [exact H1|]. split; [exact H2'|]. cbv zeta. cbn [o_beta o_eta o_design o_W].
  split; [lra|]. split; [lra|]. split; [reflexivity|]. split; [rewrite HM; lia|]. split; [|split; [reflexivity|split; [reflexivity|split]]].
  - destruct HV as (rho & Hr & HV). injection Hr as <-. rewrite (proj2 (HV 7 ltac:(rewrite HM; lia))). rewrite HM.
    destruct (C25_permittivity_in_range 20 ex_rho 5 (1 / 2) 10 ltac:(lra) ltac:(lra) ltac:(lra) 7 ltac:(lia)) as (_ & HZ & _). apply HZ. reflexivity.
  - intro f. apply rho2rhot_rId. rewrite HM. lia.
  - intros e m n step b1 b2 Hm. destruct (run_succeeds e m n step b1 b2 _ _ _ _ Hm HR) as (o' & s' & H & _). eauto.
Qed.
