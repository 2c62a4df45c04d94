(** C13-C17, C67, C73: histories of operations on a Simulation. *)
From Coq Require Import Reals Lra Lia List ZArith Arith Bool String Classical_Prop.
From Coquelicot Require Import Coquelicot.
From Verif Require Import Base Linear MCore MSim MHeap Spec PCore PSim PEx PropsCore PropsSolve PropsLin.
Import ListNotations.

(* ------------------------------------------------------------------ *)
(** * C13 *)
(** (a) Assigning the permittivity it already has does not change matrix or operators:
    they are what the setter would build now. *)
Theorem C13_matrix_is_that_of_current_permittivity :
  forall e s, reachable e s ->
    s_A (run_ops e [SetEps (s_eps s)] s) = s_A s /\
    s_derivs (run_ops e [SetEps (s_eps s)] s) = s_derivs s /\
    s_Nx s = nd_nx (s_eps s) /\ s_Ny s = nd_ny (s_eps s).
Proof.
  intros e s HR. destruct (reachable_consistent e s HR) as (E1 & E2 & E3).
  unfold run_ops; cbn [fold_left run_op]. unfold set_eps; cbn [s_A s_derivs].
  fold (s_epsC s). rewrite <- E3. auto.
Qed.
(** (b) As long as the array has the shape it had at construction, they are those of a
    simulation freshly constructed on it with the same arguments. *)
Theorem C13_same_as_fresh_simulation :
  forall e omega eps dl NPML p L0 s0 l,
  Simulation omega eps dl NPML p L0 = Ok s0 ->
  let s := run_ops e l s0 in
  nd_nx (s_eps s) = nd_nx eps -> nd_ny (s_eps s) = nd_ny eps ->
  exists s1, Simulation omega (s_eps s) dl NPML p L0 = Ok s1 /\
    s_A s1 = s_A s /\ s_derivs s1 = s_derivs s /\ s_omega s1 = s_omega s /\ s_dl s1 = s_dl s /\
    s_NPML s1 = s_NPML s /\ s_pol s1 = s_pol s /\ s_L0 s1 = s_L0 s.
Proof.
  intros e omega eps dl NPML p L0 s0 l HS s Hx Hy.
  assert (HC: consistent s) by (apply run_ops_consistent; eapply Simulation_consistent; eassumption).
  destruct (run_ops_params e l s0) as (P1 & P2 & P3 & P4 & P5 & P6 & P7). fold s in P1, P2, P3, P4, P5, P6, P7.
  destruct HC as (_ & _ & E3).
  unfold Simulation in HS |- *. destruct (check_inputs L0 omega NPML p); [|discriminate].
  injection HS as HS. eexists. split; [reflexivity|].
  rewrite P1, P2, P3, P4, P6, P7 in E3. rewrite <- HS in E3.
  unfold set_eps in E3; cbn [s_omega s_xrange s_yrange s_NPML s_pol s_L0] in E3.
  unfold set_eps; cbn [s_A s_derivs s_omega s_xrange s_yrange s_NPML s_pol s_L0 s_dl].
  rewrite Hx, Hy in *. unfold s_epsC in E3. rewrite <- E3. cbn [fst snd].
  rewrite P1, P2, P3, P4, P5, <- HS. repeat split.
Qed.
Example C13_met : exists l, (List.length l = 4)%nat /\ reachable ex_env (run_ops ex_env l (ex_s "Ez")) /\
  nd_buf (s_eps (run_ops ex_env l (ex_s "Ez"))) 0%nat <> nd_buf (s_eps (ex_s "Ez")) 0%nat.
Proof.
  exists [Solve false true; SetEps (mkNd 3 2 (fun _ => 7%R)); AddNl 1 (fun _ => 1%R) "kerr" false None; ComputeNl vzero].
  split; [reflexivity|]. split.
  - exists ex_omega, ex_eps, 1%R, (Some [0;0]%Z), "Ez"%string, 1%R, (ex_s "Ez"). eexists.
    split; [lra|]. split; [simpl; lia|]. split; [simpl; lia|]. split; [apply ex_s_eq; auto|reflexivity].
  - assert (H := ex_s_eq "Ez" ltac:(auto)). apply Simulation_fields in H. destruct H as (_ & _ & _ & _ & -> & _).
    unfold run_ops; cbn [fold_left run_op].
    unfold add_nl, bind, getS, lift, Nonlinearity, putS. cbn [String.eqb Ascii.eqb Bool.eqb fst].
    cbn [compute_nl upd_nlvals s_eps upd_nl set_eps nd_buf ex_eps]. lra.
Qed.

(* ------------------------------------------------------------------ *)
(** * C14 *)
(** The stored linear fields are those of the current matrix and source: the main
    component solves the system and the other two are the discrete curls of it. *)
Definition stored_fields_valid (s : sim) : Prop :=
  forall X, s_fields s (pol_comp (s_pol s)) = Some X ->
    solves (s_M s) (s_A s) X (rhs s) /\
    exists av, s_fields s (comp1 (s_pol s)) = Some (fst (derived_fields s (s_epsC s) av X)) /\
               s_fields s (comp2 (s_pol s)) = Some (snd (derived_fields s (s_epsC s) av X)).
(** Histories in which the source is only assigned while no fields are stored (before the
    first solve or right after assigning eps_r). *)
Fixpoint source_set_before_solving (e : env) (l : list op) (s : sim) : Prop :=
  match l with
  | [] => True
  | o :: t => match o with SetSrc _ => forall c, s_fields s c = None | _ => True end /\
              source_set_before_solving e t (run_op e o s)
  end.
Lemma run_ops_fields_inv' e l : forall s, source_set_before_solving e l s -> fields_inv e s -> fields_inv e (run_ops e l s).
Proof.
  induction l as [|o l IH]; intros s HF H; [assumption|]. destruct HF as [H1 H2]. simpl. apply IH; [assumption|].
  destruct o; try (apply run_op_fields_inv; [exact I|assumption]).
  cbn [run_op]. left. exact H1.
Qed.
Theorem C14_stored_fields_valid_partial :
  forall e omega eps dl NPML p L0 s0 l, solver_exact e ->
  Simulation omega eps dl NPML p L0 = Ok s0 ->
  source_set_before_solving e l s0 ->
  let s := run_ops e l s0 in
  nonsingular (s_M s) (s_A s) -> stored_fields_valid s.
Proof.
  intros e omega eps dl NPML p L0 s0 l He HS Hl s HA X HX.
  assert (HI: fields_inv e s).
  { apply run_ops_fields_inv'; [assumption|]. left. apply Simulation_fields in HS. apply HS. }
  destruct HI as [HI|[_ [av [X' [HX' HI]]]]]; [rewrite HI in HX; discriminate|]. cbv zeta in HI.
  assert (X = X').
  { rewrite HI, store3_pol in HX. cbn [snd] in HX. congruence. }
  subst X'. split; [eapply solver_direct_correct; eassumption|].
  exists av. rewrite !HI. unfold store3, fset. destruct (s_pol s); split; reflexivity.
Qed.
(** With a source assigned later it fails, always: whenever valid fields are stored and the
    source is then changed at some pixel, the stored fields are not valid. *)
Theorem C14_source_change_refuted :
  forall e s, reachable e s -> (0 < s_M s)%nat -> stored_fields_valid s ->
  forall X src k, s_fields s (pol_comp (s_pol s)) = Some X ->
  (k < s_M s)%nat -> nd_buf src k <> nd_buf (s_src s) k ->
  ~ stored_fields_valid (run_ops e [SetSrc src] s).
Proof.
  intros e s HR HM HV X src k HX Hk Hd H'. destruct (HV X HX) as [H _]. destruct (H' X HX) as [H2 _].
  destruct (reachable_physical e s HR) as (_ & Ho & _).
  { unfold s_M in HM. destruct (s_Nx s); lia. } { unfold s_M in HM. destruct (s_Ny s); lia. }
  specialize (H k Hk). specialize (H2 k Hk). unfold run_ops in H2; cbn [fold_left run_op] in H2.
  change (s_M (upd_src src s)) with (s_M s) in H2. cbn [upd_src s_A] in H2. rewrite H in H2.
  unfold rhs in H2; cbn [upd_src s_src s_omega] in H2. apply Hd.
  assert (E: ((nd_buf src k - nd_buf (s_src s) k) * (Ci * RtoC (s_omega s)) = RtoC 0)%C).
  { replace ((nd_buf src k - nd_buf (s_src s) k) * (Ci * RtoC (s_omega s)))%C
      with (nd_buf src k * Ci * RtoC (s_omega s) - nd_buf (s_src s) k * Ci * RtoC (s_omega s))%C by ring.
    rewrite <- H2. ring. }
  apply Cmult_integral in E. destruct E as [E|E].
  - replace (nd_buf src k) with (nd_buf src k - nd_buf (s_src s) k + nd_buf (s_src s) k)%C by ring. rewrite E. ring.
  - exfalso. apply Cmult_integral in E. destruct E as [E|E]; [apply Ci_neq0; assumption|].
    apply (RtoC_neq0 (s_omega s)); [lra|assumption].
Qed.
Example C14_met : exists l src, let s := run_ops ex_env l (ex_s "Ez") in
  source_set_before_solving ex_env l (ex_s "Ez") /\ (exists X, s_fields s Ez = Some X) /\
  nd_buf (s_src s) 2%nat <> RtoC 0 /\ nd_buf src 2%nat <> nd_buf (s_src s) 2%nat.
Proof.
  set (src := mkNd 3 2 (fun k => if Nat.eqb k 2 then RtoC 1 else RtoC 0)).
  exists [SetSrc src; Solve false true], (mkNd 3 2 (fun _ => RtoC 0)). intro s.
  destruct (ex_fields "Ez") as (E1 & E2 & E3 & E4); [auto|].
  assert (HP: s_pol (ex_s "Ez") = PolEz).
  { assert (H := ex_s_eq "Ez" ltac:(auto)). apply Simulation_fields in H. apply H. reflexivity. }
  assert (Hs: nd_size (s_src (upd_src src (ex_s "Ez"))) = s_M (upd_src src (ex_s "Ez"))).
  { change (s_M (upd_src src (ex_s "Ez"))) with (s_M (ex_s "Ez")). rewrite E4. reflexivity. }
  destruct (solve_fields_lin ex_env true _ Hs) as [X [_ HE]]. cbv zeta in HE.
  assert (Es: s = fst (solve_fields ex_env false true (upd_src src (ex_s "Ez")))) by reflexivity.
  rewrite HE in Es. cbn [fst] in Es.
  split; [|split; [|split]].
  - split; [|split; [exact I|exact I]]. intro c. assert (H := ex_s_eq "Ez" ltac:(auto)). apply Simulation_fields in H. apply H.
  - exists X. rewrite Es. cbn [upd_fields s_fields]. change (s_pol (upd_src src (ex_s "Ez"))) with (s_pol (ex_s "Ez")).
    rewrite HP. change Ez with (pol_comp PolEz). rewrite store3_pol. reflexivity.
  - rewrite Es. cbn [upd_fields upd_src s_src src nd_buf Nat.eqb]. apply RtoC_neq0; lra.
  - rewrite Es. cbn [upd_fields upd_src s_src src nd_buf Nat.eqb]. intro H. symmetry in H. apply RtoC_neq0 in H; lra.
Qed.

(* ------------------------------------------------------------------ *)
(** * C15 *)
(** what the user sees of the linear problem *)
Definition linear_problem_untouched (s s' : sim) : Prop :=
  s_eps s' = s_eps s /\ s_src s' = s_src s /\ s_A s' = s_A s /\ s_derivs s' = s_derivs s /\
  s_omega s' = s_omega s /\ s_Nx s' = s_Nx s /\ s_Ny s' = s_Ny s /\ s_nl s' = s_nl s /\ s_modes s' = s_modes s.
Lemma same_untouched s s' : same_problem s s' -> linear_problem_untouched s s'.
Proof. unfold same_problem, linear_problem_untouched. intuition. Qed.
(** evaluating the nonlinearity and solving with include_nl=True store no linear field *)
Theorem C15_compute_nl_and_include_nl :
  forall e s E av s' r,
  (linear_problem_untouched s (compute_nl E s) /\ s_fields (compute_nl E s) = s_fields s) /\
  (solve_fields e true av s = (s', r) -> s' = s).
Proof.
  intros e s E av s' r. split; [split; [apply same_untouched, compute_nl_same|reflexivity]|].
  apply solve_fields_nl_state.
Qed.
(** a nonlinear solve, with any solver, threshold, limit and outcome (converged, not
    converged or an exception), stores linear fields only if none were stored *)
Theorem C15_nonlinear_solve :
  forall e av Es name thr n s s' r,
  solve_fields_nl e av Es name thr n s = (s', r) ->
  linear_problem_untouched s s' /\
  (name <> "krylov"%string \/ s_pol s = PolEz ->
   s_fields s' = s_fields s \/
   (s_fields s (pol_comp (s_pol s)) = None /\
    exists s1 F, solve_fields e false false s = (s1, Ok F) /\ s_fields s' = s_fields s1)).
Proof.
  intros e av Es name thr n s s' r H. split.
  - apply same_untouched. apply solve_nl_step in H. apply H.
  - intro Hk. apply solve_nl_step_strict in H; [apply H|assumption].
Qed.
(** The remaining case, the krylov solver in Hz polarization, which looks for a stored Ez
    field: it re-solves the linear problem although Hz fields are stored. *)
Theorem C15_krylov_Hz_refuted :
  exists e s s' r, reachable e s /\ s_pol s = PolHz /\ s_fields s Hz <> None /\
    solve_fields_nl e false None "krylov" 0 5 s = (s', r) /\ s_fields s' <> s_fields s.
Proof.
  set (e2 := mkEnv false (fun _ n A b => fun _ => RtoC 1) (fun _ _ _ _ => 0%R) (fun _ _ _ _ => Ok vzero) (fun _ E => (E, E))).
  destruct (ex_fields "Hz") as (E1 & E2 & E3 & E4); [auto|].
  assert (HP: s_pol (ex_s "Hz") = PolHz).
  { assert (H := ex_s_eq "Hz" ltac:(auto)). apply Simulation_fields in H. apply H. reflexivity. }
  set (l := [Solve false false; SetSrc (mkNd 3 2 (fun _ => RtoC 1))]).
  set (s := run_ops e2 l (ex_s "Hz")).
  assert (Hsrc: s_src (ex_s "Hz") = mkNd 3 2 (fun _ => RtoC 0)).
  { unfold ex_s, ex_sim_res, Simulation. rewrite ex_check by auto. reflexivity. }
  assert (Hs0: nd_size (s_src (ex_s "Hz")) = s_M (ex_s "Hz")) by (rewrite Hsrc, E4; reflexivity).
  destruct (solve_fields_lin e2 false _ Hs0) as [X [HX HE]]. cbv zeta in HE.
  assert (Es: s = upd_src (mkNd 3 2 (fun _ => RtoC 1)) (fst (solve_fields e2 false false (ex_s "Hz")))) by reflexivity.
  rewrite HE in Es; cbn [fst] in Es.
  assert (EX: X = vzero).
  { unfold solver_direct in HX. replace (all_zero _ _) with true in HX; [congruence|].
    symmetry. apply all_zero_spec. intros k Hk. unfold rhs. rewrite Hsrc; cbn [nd_buf]. ring. }
  assert (EP: s_pol s = PolHz) by (rewrite Es; exact HP).
  assert (EM: s_M s = 6%nat) by (rewrite Es; exact E4).
  assert (HF: s_fields s Hz = Some vzero).
  { rewrite Es. cbn [upd_src upd_fields s_fields]. rewrite HP. change Hz with (pol_comp PolHz). rewrite store3_pol. cbn [snd]. rewrite EX. reflexivity. }
  assert (HF2: s_fields s Ez = None).
  { rewrite Es. cbn [upd_src upd_fields s_fields]. rewrite HP.
    assert (H := ex_s_eq "Hz" ltac:(auto)). apply Simulation_fields in H.
    unfold store3, fset; cbn [pol_comp comp1 comp2 comp_eqb]. apply H. }
  assert (Hs: nd_size (s_src s) = s_M s) by (rewrite EM, Es; reflexivity).
  destruct (solve_fields_lin e2 false s Hs) as [Y [HY HE2]]. cbv zeta in HE2.
  assert (EY: Y = fun _ => RtoC 1).
  { unfold solver_direct in HY. destruct (all_zero (s_M s) (rhs s)) eqn:EZ.
    - exfalso. assert (H0 := proj1 (all_zero_spec _ _) EZ 0%nat ltac:(rewrite EM; lia)). unfold rhs in H0.
      rewrite Es in H0 at 1. cbn [upd_src s_src nd_buf] in H0.
      assert (Ho: s_omega s = ex_omega).
      { rewrite Es. cbn [upd_src upd_fields s_omega]. assert (HH := ex_s_eq "Hz" ltac:(auto)). apply Simulation_fields in HH. apply HH. }
      rewrite Ho in H0. apply (f_equal Im) in H0. autorewrite with reim in H0. assert (HO := ex_omega_pos). lra.
    - unfold DEFAULT_SOLVER in HY; cbn [e2 e_pardiso e_solve] in HY. congruence. }
  destruct (solve_fields_nl e2 false None "krylov" 0 5 s) as [s' r] eqn:ER.
  exists e2, s, s', r. split; [|split; [exact EP|split; [rewrite HF; discriminate|split; [exact ER|]]]].
  - exists ex_omega, ex_eps, 1%R, (Some [0;0]%Z), "Hz"%string, 1%R, (ex_s "Hz"), l.
    split; [lra|]. split; [simpl; lia|]. split; [simpl; lia|]. split; [apply ex_s_eq; auto|reflexivity].
  - unfold solve_fields_nl, run_solver_nl in ER. cbn [String.eqb Ascii.eqb Bool.eqb] in ER.
    unfold newton_krylov_solve, start_field in ER. rewrite HF2, HE2 in ER.
    unfold nl_eq_and_jac in ER. cbn [upd_fields s_pol] in ER. rewrite EP in ER. injection ER as <- _.
    intro HC. assert (HC2: Some Y = s_fields s Hz) by exact (f_equal (fun f => f Hz) HC). rewrite HF in HC2.
    injection HC2 as HC2. rewrite EY in HC2. apply (f_equal (fun f => f 0%nat)) in HC2. unfold vzero in HC2. apply RtoC_neq0 in HC2; lra.
Qed.

(* ------------------------------------------------------------------ *)
(** * C16 *)
Definition zero_one (M : nat) (d : rvec) : Prop := forall k, (k < M)%nat -> d k = 0%R \/ d k = 1%R.
(** what each style promises inside the design region; [v] the new value *)
Definition style_value (style : string) (eps_m v : R) : Prop :=
  (style = "full"%string -> v = eps_m) /\
  (style = "halfway"%string -> v = (1 + eps_m) / 2)%R /\
  (style = "empty"%string -> v = 1%R) /\
  (style = "random"%string \/ style = "random_sym"%string -> 1 <= v <= eps_m)%R.
Definition known_style (style : string) : Prop :=
  List.In style ["full"; "halfway"; "empty"; "random"; "random_sym"]%string.
Lemma init_design_eps rnd design eps_m style s :
  let s' := init_design_region rnd design eps_m style s in
  nd_nx (s_eps s') = nd_nx (s_eps s) /\ nd_ny (s_eps s') = nd_ny (s_eps s) /\
  nd_buf (s_eps s') = match init_eps rnd design eps_m style (s_eps s) with Some b => b | None => nd_buf (s_eps s) end.
Proof.
  intro s'. unfold s', init_design_region. destruct (init_eps _ _ _ _ _); cbn [upd_rho s_eps set_eps nd_nx nd_ny nd_buf]; auto.
Qed.
Theorem C16_design_region_initialised :
  forall rnd design eps_m style s, (1 < eps_m)%R ->
  let M := nd_size (s_eps s) in
  let s' := init_design_region rnd design eps_m style s in
  zero_one M design -> (forall k, 0 <= rnd k < 1)%R ->
  forall k, (k < M)%nat ->
    (design k = 0%R -> nd_buf (s_eps s') k = nd_buf (s_eps s) k) /\
    (design k = 1%R -> known_style style -> style_value style eps_m (nd_buf (s_eps s') k)) /\
    (~ known_style style -> nd_buf (s_eps s') k = nd_buf (s_eps s) k).
Proof.
  intros rnd design eps_m style s Hm M s' Hd Hr k Hk.
  destruct (init_design_eps rnd design eps_m style s) as (_ & _ & E). fold s' in E. rewrite E. clear E.
  assert (Hbd: forall v, (0 <= v < 1)%R -> (1 <= (eps_m - 1) * v + 1 <= eps_m)%R).
  { intros v Hv. split; [assert (0 <= (eps_m - 1) * v)%R by (apply Rmult_le_pos; lra); lra|].
    assert ((eps_m - 1) * v <= (eps_m - 1) * 1)%R by (apply Rmult_le_compat_l; lra). lra. }
  unfold init_eps, style_value, known_style.
  destruct (String.eqb_spec style "full") as [->|N1].
  { destruct (Req_EM_T (design k) 1) as [E|E].
    - split; [intro; lra|]. split; [|intro HH; exfalso; apply HH; simpl; tauto]. intros _ _.
      repeat split; intros; try discriminate; try lra; match goal with H : _ \/ _ |- _ => destruct H; discriminate end.
    - split; [auto|]. split; [intro; contradiction|auto]. }
  destruct (String.eqb_spec style "halfway") as [->|N2].
  { destruct (Req_EM_T (design k) 1) as [E|E].
    - split; [intro; lra|]. split; [|intro HH; exfalso; apply HH; simpl; tauto]. intros _ _.
      repeat split; intros; try discriminate; try lra; match goal with H : _ \/ _ |- _ => destruct H; discriminate end.
    - split; [auto|]. split; [intro; contradiction|auto]. }
  destruct (String.eqb_spec style "empty") as [->|N3].
  { destruct (Req_EM_T (design k) 1) as [E|E].
    - split; [intro; lra|]. split; [|intro HH; exfalso; apply HH; simpl; tauto]. intros _ _.
      repeat split; intros; try discriminate; try lra; match goal with H : _ \/ _ |- _ => destruct H; discriminate end.
    - split; [auto|]. split; [intro; contradiction|auto]. }
  destruct (String.eqb_spec style "random") as [->|N4].
  { destruct (Req_EM_T (design k) 0) as [E|E].
    - split; [auto|]. split; [intro; lra|auto].
    - split; [intro; contradiction|]. split; [|intro HH; exfalso; apply HH; simpl; tauto]. intros _ _.
      split; [discriminate|]. split; [discriminate|]. split; [discriminate|]. intros _. apply Hbd, Hr. }
  destruct (String.eqb_spec style "random_sym") as [->|N5].
  { destruct (Req_EM_T (design k) 0) as [E|E].
    - split; [auto|]. split; [intro; lra|auto].
    - split; [intro; contradiction|]. split; [|intro HH; exfalso; apply HH; simpl; tauto]. intros _ _.
      split; [discriminate|]. split; [discriminate|]. split; [discriminate|]. intros _. apply Hbd.
      assert (HA := Hr (k / nd_ny (s_eps s) * nd_ny (s_eps s) + (nd_ny (s_eps s) - 1 - k mod nd_ny (s_eps s)))%nat).
      assert (HB := Hr k). lra. }
  split; [auto|]. split; [|auto].
  intros _ HK. simpl in HK. exfalso. intuition congruence.
Qed.
(** random_sym is symmetric under reflection of y wherever pixel and mirror pixel are both design *)
Theorem C16_random_sym_is_symmetric :
  forall rnd design eps_m s i j,
  let Nx := nd_nx (s_eps s) in let Ny := nd_ny (s_eps s) in
  let s' := init_design_region rnd design eps_m "random_sym" s in
  (i < Nx)%nat -> (j < Ny)%nat ->
  design (pix Ny i j) = 1%R -> design (pix Ny i (Ny - 1 - j)) = 1%R ->
  nd_at (s_eps s') i j = nd_at (s_eps s') i (Ny - 1 - j).
Proof.
  intros rnd design eps_m s i j Nx Ny s' Hi Hj H1 H2.
  destruct (init_design_eps rnd design eps_m "random_sym" s) as (_ & EN & E). fold s' in EN, E.
  unfold nd_at. rewrite EN, E. fold Ny. unfold init_eps; cbn [String.eqb Ascii.eqb Bool.eqb]. fold Ny.
  unfold pix in H1, H2. rewrite H1, H2. destruct (Req_EM_T 1 0); [lra|].
  rewrite !flat_div, !flat_mod by lia.
  replace (Ny - 1 - (Ny - 1 - j))%nat with j by lia. lra.
Qed.
(** the random styles exactly: a random design, and the mean of a random design and its mirror image *)
Theorem C16_random_designs :
  forall rnd design eps_m s i j,
  let Nx := nd_nx (s_eps s) in let Ny := nd_ny (s_eps s) in
  let random := fun i j => (1 + (eps_m - 1) * rnd (pix Ny i j))%R in
  (i < Nx)%nat -> (j < Ny)%nat -> design (pix Ny i j) = 1%R ->
  nd_at (s_eps (init_design_region rnd design eps_m "random" s)) i j = random i j /\
  nd_at (s_eps (init_design_region rnd design eps_m "random_sym" s)) i j = ((random i j + random i (Ny - 1 - j)%nat) / 2)%R.
Proof.
  intros rnd design eps_m s i j Nx Ny random Hi Hj H1.
  destruct (init_design_eps rnd design eps_m "random" s) as (_ & EN & E). destruct (init_design_eps rnd design eps_m "random_sym" s) as (_ & EN' & E').
  unfold nd_at. rewrite EN, EN', E, E'. fold Ny. unfold init_eps; cbn [String.eqb Ascii.eqb Bool.eqb]. fold Ny.
  unfold random, pix in *. rewrite H1. destruct (Req_EM_T 1 0); [lra|]. rewrite !flat_div, !flat_mod by lia. split; field.
Qed.
(** the stored density is the one whose permittivity is the new eps_r, also when the
    style is unknown and nothing else happens; matrix rebuilt, fields dropped *)
Theorem C16_density_matches_permittivity :
  forall rnd design eps_m style s, (eps_m <> 1)%R ->
  let s' := init_design_region rnd design eps_m style s in
  exists rho, s_rho s' = Val rho /\
    (forall k, nd_buf (s_eps s') k = 1 + rho k * (eps_m - 1))%R /\
    (known_style style -> forall c, s_fields s' c = None).
Proof.
  intros rnd design eps_m style s Hm s'. eexists. split; [reflexivity|]. split.
  - intro k. change (s_eps s') with (s_eps (match init_eps rnd design eps_m style (s_eps s) with
      Some b => set_eps (mkNd (nd_nx (s_eps s)) (nd_ny (s_eps s)) b) s | None => s end)).
    unfold eps2rho. field. lra.
  - intros HK c. unfold s', init_design_region, init_eps.
    destruct HK as [<-|[<-|[<-|[<-|[<-|[]]]]]]; reflexivity.
Qed.
Example C16_met : exists (rnd : nat -> R) design s, zero_one (nd_size (s_eps s)) design /\ (forall k, 0 <= rnd k < 1)%R /\
  s_eps s = ex_eps /\ design 0%nat = 1%R /\ design 1%nat = 0%R.
Proof.
  exists (fun k => if Nat.even k then 0%R else (1/2)%R), (fun k => if Nat.even k then 1%R else 0%R), (ex_s "Ez").
  split; [intros k _; destruct (Nat.even k); auto|]. split; [intro k; destruct (Nat.even k); lra|].
  split; [|auto]. assert (H := ex_s_eq "Ez" ltac:(auto)). apply Simulation_fields in H. apply H.
Qed.

(* ------------------------------------------------------------------ *)
(** * C17 *)
Lemma deref_hwrite_same h a v : (a < List.length h)%nat -> deref (hwrite h a v) a = v.
Proof. revert a; induction h as [|x t IH]; intros [|a] H; simpl in *; try lia; auto. apply IH; lia. Qed.
Lemma deref_hwrite_other h a b v : a <> b -> deref (hwrite h a v) b = deref h b.
Proof.
  revert a b; induction h as [|x t IH]; intros [|a] [|b] H; simpl; try reflexivity; try congruence.
  apply IH. congruence.
Qed.
Lemma hwrite_length h a v : List.length (hwrite h a v) = List.length h.
Proof. revert a; induction h as [|x t IH]; intros [|a]; simpl; auto. Qed.
Lemma deref_halloc_old h v b : (b < List.length h)%nat -> deref (fst (halloc h v)) b = deref h b.
Proof. intro H. unfold deref, halloc; simpl. apply app_nth1; assumption. Qed.
Lemma deref_halloc_new h v : deref (fst (halloc h v)) (List.length h) = v.
Proof. unfold deref, halloc; simpl. rewrite app_nth2 by lia. rewrite Nat.sub_diag. reflexivity. Qed.

(** The model with array identities does to the simulation what the value model does. *)
Theorem C17_heap_model_agrees :
  forall rnd design eps_m style h o, (fst o < List.length h)%nat -> s_eps (snd o) = h_eps h o ->
  let '(h', o') := h_init_design_region rnd design eps_m style h o in
  snd o' = init_design_region rnd design eps_m style (snd o) /\ s_eps (snd o') = h_eps h' o' /\ (fst o' < List.length h')%nat.
Proof.
  intros rnd design eps_m style h [a s] Ha HE. cbn [fst snd] in Ha, HE.
  unfold h_init_design_region, init_design_region. cbn [snd]. rewrite HE.
  destruct (init_eps rnd design eps_m style (h_eps h (a, s))) as [b|] eqn:EI.
  - destruct (String.eqb style "halfway").
    + unfold h_set_eps, h_eps; cbn [fst snd]. rewrite !deref_hwrite_same, hwrite_length by assumption.
      repeat split; assumption.
    + destruct (halloc h _) as [h' a'] eqn:EA. unfold halloc in EA. injection EA as <- <-.
      unfold h_set_eps, h_eps; cbn [fst snd].
      assert (HN := deref_halloc_new h (mkNd (nd_nx (deref h a)) (nd_ny (deref h a)) b)). unfold halloc in HN; cbn [fst] in HN.
      rewrite !HN. rewrite app_length; simpl. repeat split; lia.
  - unfold h_eps in *; cbn [fst snd upd_rho s_eps] in *. rewrite HE. repeat split; assumption.
Qed.
(** Any sequence of calls; a call is (draws, design, eps_m, style). *)
Definition idr_call := ((nat -> R) * rvec * R * string)%type.
Definition run_idr (l : list idr_call) (w : heap * hsim) : heap * hsim :=
  fold_left (fun w c => let '(rnd, d, em, st) := c in h_init_design_region rnd d em st (fst w) (snd w)) l w.
Definition call_style (c : idr_call) : string := snd c.
Definition copying_style (st : string) : Prop := List.In st ["full"; "empty"; "random"; "random_sym"]%string.

Lemma h_idr_frame rnd d em st h o b : (b < List.length h)%nat -> (st <> "halfway"%string \/ fst o <> b) ->
  let w := h_init_design_region rnd d em st h o in
  deref (fst w) b = deref h b /\ (List.length h <= List.length (fst w))%nat /\
  (fst o <> b -> fst (snd w) <> b) /\ (copying_style st -> fst (snd w) <> b).
Proof.
  intros Hb Hn w. unfold w, h_init_design_region. destruct o as [a s]. cbn [fst] in *.
  destruct (init_eps rnd d em st (h_eps h (a, s))) as [v|] eqn:EI.
  - destruct (String.eqb_spec st "halfway") as [->|N].
    + destruct Hn as [Hn|Hn]; [congruence|]. cbn [fst snd h_set_eps]. rewrite hwrite_length.
      split; [apply deref_hwrite_other; assumption|]. split; [lia|]. split; [auto|].
      intros [?|[?|[?|[?|[]]]]]; discriminate.
    + destruct (halloc h _) as [h' a'] eqn:EA. unfold halloc in EA. injection EA as <- <-. cbn [fst snd h_set_eps].
      split; [apply (deref_halloc_old h); assumption|]. rewrite app_length; simpl. repeat split; lia.
  - cbn [fst snd]. split; [reflexivity|]. split; [lia|]. split; [auto|]. intro HK. exfalso.
    unfold init_eps in EI. destruct HK as [<-|[<-|[<-|[<-|[]]]]]; discriminate.
Qed.
(** The array with identity [b] (for instance the one the user passed) keeps its content
    through any sequence of calls in which 'halfway' is not used before a copying style. *)
Fixpoint halfway_only_after_copy (l : list idr_call) : Prop :=
  match l with
  | [] => True
  | c :: t => copying_style (call_style c) \/ (call_style c <> "halfway"%string /\ halfway_only_after_copy t)
  end.
Lemma run_idr_other l : forall h o b, (b < List.length h)%nat -> fst o <> b ->
  deref (fst (run_idr l (h, o))) b = deref h b.
Proof.
  induction l as [|[[[rnd d] em] st] t IH]; intros h o b Hb Hn; [reflexivity|].
  unfold run_idr; cbn [fold_left fst snd]. fold (run_idr t).
  destruct (h_idr_frame rnd d em st h o b Hb (or_intror Hn)) as (E1 & E2 & E3 & _).
  destruct (h_init_design_region rnd d em st h o) as [h' o']; cbn [fst snd] in *.
  change (deref (fst (run_idr t (h', o'))) b = deref h b). rewrite IH; auto. lia.
Qed.
Theorem C17_users_array_unchanged_partial :
  forall l h o b, (b < List.length h)%nat -> halfway_only_after_copy l ->
  deref (fst (run_idr l (h, o))) b = deref h b.
Proof.
  induction l as [|[[[rnd d] em] st] t IH]; intros h o b Hb Hl; [reflexivity|].
  unfold run_idr; cbn [fold_left fst snd]. fold (run_idr t). cbn in Hl.
  assert (Hn: st <> "halfway"%string).
  { destruct Hl as [Hl|[Hl _]]; [|exact Hl]. intros ->. destruct Hl as [?|[?|[?|[?|[]]]]]; discriminate. }
  destruct (h_idr_frame rnd d em st h o b Hb (or_introl Hn)) as (E1 & E2 & E3 & E4).
  destruct (h_init_design_region rnd d em st h o) as [h' o']; cbn [fst snd] in *.
  change (deref (fst (run_idr t (h', o'))) b = deref h b). rewrite <- E1. destruct Hl as [Hl|[_ Hl]].
  - apply run_idr_other; [lia|auto].
  - apply IH; [lia|assumption].
Qed.
(** and 'halfway' on the array the user passed overwrites it, at every design pixel *)
Theorem C17_halfway_refuted :
  forall rnd design eps_m h o, (fst o < List.length h)%nat ->
  forall k, design k = 1%R ->
  nd_buf (deref (fst (h_init_design_region rnd design eps_m "halfway" h o)) (fst o)) k = ((1 + eps_m) / 2)%R.
Proof.
  intros rnd design eps_m h o Ho k Hk. unfold h_init_design_region, init_eps. cbn [String.eqb Ascii.eqb Bool.eqb fst snd].
  rewrite deref_hwrite_same by assumption. cbn [nd_buf]. rewrite Hk. destruct (Req_EM_T 1 1); lra.
Qed.
Example C17_met : exists h o, h_Simulation h ex_omega 0 1 (Some [0;0]%Z) "Ez" 1 = Ok o /\ fst o = 0%nat /\
  nd_buf (deref h 0) 0%nat <> ((1 + 5) / 2)%R /\
  halfway_only_after_copy [((fun _ => 0%R), (fun _ => 1%R), 5%R, "full"%string); ((fun _ => 0%R), (fun _ => 1%R), 5%R, "halfway"%string)].
Proof.
  exists [ex_eps], (0%nat, ex_s "Ez"). split.
  - unfold h_Simulation. cbn [deref nth]. assert (H := ex_s_eq "Ez" ltac:(auto)). unfold ex_sim_res in H. rewrite H. reflexivity.
  - split; [reflexivity|]. split; [cbn; lra|]. left. unfold copying_style; simpl; auto.
Qed.

(* ------------------------------------------------------------------ *)
(** * C73 simulations built on the same array *)
(** every simulation's matrix is that of the permittivity its eps_r returns *)
Definition in_step (h : heap) (o : hsim) : Prop :=
  s_A (snd (h_set_eps h (fst o) o)) = s_A (snd o).
Theorem C73_other_simulations_undisturbed_partial :
  forall rnd design eps_m style h o1 o2, (fst o2 < List.length h)%nat ->
  style <> "halfway"%string \/ fst o1 <> fst o2 ->
  in_step h o2 ->
  let h' := fst (h_init_design_region rnd design eps_m style h o1) in
  in_step h' o2 /\ h_eps h' o2 = h_eps h o2.
Proof.
  intros rnd design eps_m style h o1 o2 H2 Hn HI h'.
  destruct (h_idr_frame rnd design eps_m style h o1 (fst o2) H2 Hn) as (E1 & _). fold h' in E1.
  unfold in_step, h_eps, h_set_eps in *. rewrite E1. auto.
Qed.
Theorem C73_shared_array_refuted :
  exists h o1 o2, h_Simulation h ex_omega 0 1 (Some [0;0]%Z) "Ez" 1 = Ok o1 /\
    h_Simulation h ex_omega 0 1 (Some [0;0]%Z) "Ez" 1 = Ok o2 /\ in_step h o2 /\
    let h' := fst (h_init_design_region (fun _ => 0%R) (fun _ => 1%R) 5 "halfway" h o1) in
    ~ in_step h' o2.
Proof.
  exists [ex_eps], (0%nat, ex_s "Ez"), (0%nat, ex_s "Ez").
  assert (HS := ex_s_eq "Ez" ltac:(auto)).
  assert (E0: h_Simulation [ex_eps] ex_omega 0 1 (Some [0;0]%Z) "Ez" 1 = Ok (0%nat, ex_s "Ez")).
  { unfold h_Simulation. cbn [deref nth]. unfold ex_sim_res in HS. rewrite HS. reflexivity. }
  assert (EE: s_eps (ex_s "Ez") = ex_eps) by (apply Simulation_fields in HS; apply HS).
  assert (HR := ex_reachable "Ez" ltac:(auto)).
  split; [exact E0|]. split; [exact E0|]. split.
  - unfold in_step, h_set_eps; cbn [fst snd deref nth]. rewrite <- EE.
    destruct (C13_matrix_is_that_of_current_permittivity _ _ HR) as [H _]. exact H.
  - intros h' HI. unfold in_step, h_set_eps in HI; cbn [fst snd] in HI.
    assert (Ed: deref h' 0 = mkNd 3 2 (fun _ => (5 / 2 + 1 / 2)%R)).
    { unfold h', h_init_design_region, init_eps, h_eps. cbn [String.eqb Ascii.eqb Bool.eqb fst snd deref nth hwrite h_set_eps ex_eps nd_nx nd_ny].
      destruct (Req_EM_T 1 1); [reflexivity|lra]. }
    rewrite Ed in HI.
    assert (Hp: s_pol (ex_s "Ez") = PolEz) by (apply Simulation_fields in HS; apply HS; reflexivity).
    set (a := mkNd 3 2 (fun k => if Nat.eqb k 0 then (5 / 2 + 1 / 2)%R else nd_buf ex_eps k)).
    assert (E00: s_A (set_eps (mkNd 3 2 (fun _ => (5 / 2 + 1 / 2)%R)) (ex_s "Ez")) 0%nat 0%nat = s_A (set_eps a (ex_s "Ez")) 0%nat 0%nat).
    { unfold set_eps; cbn [s_A nd_nx nd_ny a]. rewrite Hp. reflexivity. }
    destruct (ex_fields "Ez") as (F1 & F2 & F3 & F4); [auto|].
    assert (H1 := C11_one_pixel_change ex_env (ex_s "Ez") HR Hp 0%nat a ltac:(rewrite F1; reflexivity) ltac:(rewrite F2; reflexivity)).
    cbv zeta in H1. specialize (H1 ltac:(intros j _ Hj; rewrite EE; cbn [a nd_buf]; destruct (Nat.eqb_spec j 0); [contradiction|reflexivity])).
    specialize (H1 0%nat 0%nat ltac:(rewrite F4; lia) ltac:(rewrite F4; lia)).
    unfold run_ops in H1; cbn [fold_left run_op] in H1. rewrite <- E00, HI in H1. cbn [Nat.eqb andb] in H1.
    apply (f_equal Re) in H1. autorewrite with reim in H1. rewrite EE in H1. cbn [a nd_buf Nat.eqb ex_eps] in H1.
    apply Simulation_fields in HS. destruct HS as (W1 & W2 & _). rewrite W1, W2 in H1.
    assert (HO := ex_omega_pos). assert (HE := EPSILON_0_pos).
    assert (Hc: (0 < ex_omega ^ 2 * (EPSILON_0 * 1))%R) by (apply Rmult_lt_0_compat; [apply pow_lt; assumption|lra]).
    assert (Hz: (ex_omega ^ 2 * (EPSILON_0 * 1) * (5 / 2 + 1 / 2 - 1) = 0)%R) by lra.
    nra.
Qed.

(* ------------------------------------------------------------------ *)
(** * C67 constructor *)
Definition valid_arguments (L0 omega : R) (NPML : option (list Z)) (p : string) : Prop :=
  (0 < L0)%R /\ (0 < omega)%R /\
  (exists a b, NPML = Some [a; b] /\ (0 <= a)%Z /\ (0 <= b)%Z) /\
  (p = "Ez" \/ p = "Hz")%string.
Theorem C67_constructor_validates :
  forall omega eps dl NPML p L0,
  (~ valid_arguments L0 omega NPML p -> Simulation omega eps dl NPML p L0 = Raise AssertionError) /\
  (valid_arguments L0 omega NPML p -> exists s, Simulation omega eps dl NPML p L0 = Ok s /\
     s_eps s = eps /\ s_omega s = omega /\ s_L0 s = L0 /\ s_dl s = dl /\
     nd_nx (s_src s) = nd_nx eps /\ nd_ny (s_src s) = nd_ny eps /\ (forall k, nd_buf (s_src s) k = RtoC 0) /\
     (forall c, s_fields s c = None /\ s_fields_nl s c = None) /\ s_modes s = [] /\ s_nl s = []).
Proof.
  intros omega eps dl NPML p L0.
  assert (HC: check_inputs L0 omega NPML p = true <-> valid_arguments L0 omega NPML p).
  { unfold check_inputs, valid_arguments. destruct (Rlt_dec 0 L0); destruct (Rlt_dec 0 omega); cbn [andb];
      try (split; [discriminate|intuition; lra]).
    destruct NPML as [[|a [|b [|c t]]]|]; cbn [andb]; try (split; [discriminate|intros (_ & _ & (x & y & E & _) & _); discriminate]).
    rewrite !andb_true_iff, orb_true_iff, !Z.leb_le, !String.eqb_eq. split.
    - intros [[H1 H2] H3]. repeat split; try assumption. exists a, b; auto.
    - intros (_ & _ & (x & y & E & H1 & H2) & H3). injection E as -> ->. auto. }
  unfold Simulation. destruct (check_inputs L0 omega NPML p).
  - split; [intro H; exfalso; apply H, HC; reflexivity|]. intros _. eexists. split; [reflexivity|]. repeat split.
  - split; [reflexivity|]. intro H. apply HC in H. discriminate.
Qed.
Example C67_met : valid_arguments 1 ex_omega (Some [0;10]%Z) "Hz" /\ ~ valid_arguments 1 ex_omega (Some [0]%Z) "Hz".
Proof.
  split; [|intros (_ & _ & (a & b & E & _) & _); discriminate].
  split; [lra|]. split; [apply ex_omega_pos|]. split; [exists 0%Z, 10%Z; repeat split; lia|auto].
Qed.
