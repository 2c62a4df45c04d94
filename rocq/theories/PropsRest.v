(** C112: the gradient optimizers rest exactly at the stationary designs. *)
From Coq Require Import Reals Lra Lia List ZArith Arith Bool String FunctionalExtensionality.
From Coquelicot Require Import Coquelicot.
From Verif Require Import Base Linear MCore MSim Spec PCore PSim PEx PropsCore PropsNl PropsIter MFilter PFilter PTanh PropsFilter MOpt PDiff PGrad PExOpt PropsGrad PropsGradNl PropsGradHz PropsGradTab POpt PropsOpt PropsOpt2 PropsOpt3 PropsAscent MPlot PropsShots.
Import ListNotations.
Local Open Scope nat_scope.

(** two vectors have the same first n entries *)
Definition agree {T} (n : nat) (u v : nat -> T) : Prop := forall k, k < n -> u k = v k.
(** the objective function and its derivatives are functions of arrays of n entries *)
Definition array_objective (n : nat) (J : pyfun) : Prop :=
  forall Fs Gs, List.length Fs = List.length Gs ->
  (forall i, agree n (List.nth i Fs vzero) (List.nth i Gs vzero)) ->
  pf_val J Fs = pf_val J Gs /\ forall i, agree n (pf_grad J i Fs) (pf_grad J i Gs).

(** ** Two simulations with the same arrays *)
Definition alike (s s' : sim) : Prop :=
  s_pol s' = s_pol s /\ s_omega s' = s_omega s /\ s_L0 s' = s_L0 s /\ s_Nx s' = s_Nx s /\ s_Ny s' = s_Ny s /\
  s_src s' = s_src s /\ s_derivs s' = s_derivs s /\ meq (s_M s) (s_A s') (s_A s) /\
  agree (s_M s) (nd_buf (s_eps s')) (nd_buf (s_eps s)) /\
  exists rho rho', s_rho s = Val rho /\ s_rho s' = Val rho' /\ agree (s_M s) rho' rho.
Lemma alike_M s s' : alike s s' -> s_M s' = s_M s.
Proof. intros (_ & _ & _ & E1 & E2 & _). unfold s_M. rewrite E1, E2. reflexivity. Qed.
Lemma alike_refl s rho : s_rho s = Val rho -> alike s s.
Proof.
  intro H. do 7 (split; [reflexivity|]). split; [intros i j _ _; reflexivity|]. split; [intros k _; reflexivity|].
  exists rho, rho. split; [exact H|]. split; [exact H|]. intros k _; reflexivity.
Qed.
Lemma alike_same s s1 s2 : alike s s1 -> same_problem s1 s2 -> alike s s2.
Proof.
  unfold alike, same_problem. intros (A1 & A2 & A3 & A4 & A5 & A6 & A7 & A8 & A9 & A10)
    (B1 & B2 & B3 & B4 & B5 & B6 & B7 & B8 & B9 & B10 & B11 & B12 & B13 & B14 & B15 & B16 & _).
  rewrite B1, B2, B4, B6, B7, B8, B11, B12, B13, B16. auto 12.
Qed.
Lemma alike_lin e s s' : solver_exact e -> nonsingular (s_M s) (s_A s) -> alike s s' ->
  veq (s_M s) (lin_solution e s') (lin_solution e s).
Proof.
  intros He HN HA. assert (EM := alike_M _ _ HA). destruct HA as (A1 & A2 & A3 & A4 & A5 & A6 & A7 & A8 & _).
  apply (solves_unique (s_M s) (s_A s) _ _ (rhs s) HN); [|apply lin_solution_solves; assumption].
  eapply solves_ext; [exact A8|apply veq_refl|].
  assert (HN': nonsingular (s_M s') (s_A s')) by (rewrite EM; eapply nonsingular_ext; [|exact HN]; intros i j Hi Hj; symmetry; apply A8; assumption).
  assert (Q := lin_solution_solves e s' He HN'). rewrite EM in Q. unfold rhs in *. rewrite A2, A6 in Q. exact Q.
Qed.
Lemma alike_field s s' a X X' : s_pol s = PolEz -> alike s s' -> veq (s_M s) X' X -> lin_Ez_arg a ->
  veq (s_M s) (field_map s' (oa_comp a) X') (field_map s (oa_comp a) X).
Proof.
  intros Hp HA HX Ha. assert (EM := alike_M _ _ HA). destruct HA as (A1 & A2 & A3 & A4 & A5 & A6 & A7 & A8 & _).
  assert (Q: veq (s_M s) (field_map s' (oa_comp a) X') (field_map s' (oa_comp a) X)) by (rewrite <- EM; apply field_map_veq; [congruence|rewrite EM; exact HX]).
  eapply veq_trans; [exact Q|]. unfold field_map, derived_fields. rewrite A1, Hp. cbv zeta. cbn [fst snd]. rewrite A2, A3, A7, EM. apply veq_refl.
Qed.
Lemma veq_sensitivity n o rho rho' E E' d aj aj' k : agree n rho' rho -> veq n E' E -> veq n aj' aj ->
  sensitivity n o rho' E' d aj' k = sensitivity n o rho E d aj k.
Proof.
  intros Hr HE Ha. unfold sensitivity. apply csum_ext. intros j Hj. rewrite (HE j Hj), (Ha j Hj).
  replace (rho2rhot n rho' (o_W o) j) with (rho2rhot n rho (o_W o) j); [reflexivity|]. unfold rho2rhot, rmv. apply rsum_ext. intros i Hi. rewrite (Hr i Hi). reflexivity.
Qed.
(** one gradient function on both *)
Lemma finish_alike e o s s' X X' b b' : solver_exact e -> nonsingular (s_M s) (s_A s) -> alike s s' ->
  veq (s_M s) X' X -> veq (s_M s) b' b ->
  exists g g', finish_linear_Ez e o s (Some X) b = Ok g /\ finish_linear_Ez e o s' (Some X') b' = Ok g' /\ agree (s_M s) g' g.
Proof.
  intros He HN HA HX Hb. assert (EM := alike_M _ _ HA). destruct HA as (A1 & A2 & A3 & A4 & A5 & A6 & A7 & A8 & A9 & rho & rho' & R1 & R2 & R3).
  unfold finish_linear_Ez, adjoint_linear_Ez, get_rho. rewrite R1, R2, EM.
  destruct (solver_direct_default_ok e (s_M s) (mT (s_A s)) b) as [aj Ea]. destruct (solver_direct_default_ok e (s_M s) (mT (s_A s')) b') as [aj' Ea'].
  rewrite Ea, Ea'. cbn [rbind]. do 2 eexists. split; [reflexivity|]. split; [reflexivity|]. intros k Hk. cbv beta. f_equal.
  replace (dAdeps_lin o s') with (dAdeps_lin o s) by (unfold dAdeps_lin; rewrite A2, A3; reflexivity).
  apply veq_sensitivity; [exact R3|exact HX|].
  assert (NT := nonsingular_mT _ _ HN).
  apply (solves_unique (s_M s) (mT (s_A s)) _ _ b NT); [|exact (solver_direct_correct _ _ _ _ _ _ He NT Ea)].
  assert (MT: meq (s_M s) (mT (s_A s')) (mT (s_A s))) by (intros i j Hi Hj; apply A8; assumption).
  eapply solves_ext; [exact MT|exact Hb|]. refine (solver_direct_correct _ _ _ _ _ _ He _ Ea').
  eapply nonsingular_ext; [|exact NT]. intros i j Hi Hj. symmetry. apply MT; assumption.
Qed.
Lemma loop_alike e o o' s s' J X X' : solver_exact e -> s_pol s = PolEz -> nonsingular (s_M s) (s_A s) -> alike s s' -> same_settings o o' ->
  array_objective (s_M s) J -> s_fields s Ez = Some X -> s_fields s' Ez = Some X' -> veq (s_M s) X' X ->
  List.length (stored_args o) = pf_arity J -> List.length (stored_args o') = pf_arity J ->
  (forall i, agree (s_M s) (List.nth i (stored_args o') vzero) (List.nth i (stored_args o) vzero)) ->
  forall l i acc acc', List.Forall lin_Ez_arg l -> agree (s_M s) acc' acc ->
  let L := List.combine (List.combine (List.map oa_gradient l) (List.map (fun i => pf_dcall J i) (List.seq i (List.length l)))) l in
  exists g g', grad_loop e o L acc s = (s, Ok g) /\ grad_loop e o' L acc' s' = (s', Ok g') /\ agree (s_M s) g' g.
Proof.
  intros He Hp HN HA HS HJ HX HX' HXX HL HL' HF. assert (EM := alike_M _ _ HA). assert (HA' := HA). destruct HA' as (A1 & A2 & A3 & A4 & A5 & A6 & A7 & A8 & A9 & _).
  induction l as [|a l IH]; intros i acc acc' Hl Hacc L.
  - exists acc, acc'. split; [reflexivity|]. split; [reflexivity|exact Hacc].
  - inversion Hl as [|a0 l0 Ha Hl']; subst a0 l0. unfold L. cbn [List.map List.length List.seq List.combine grad_loop].
    assert (HG: veq (s_M s) (pf_grad J i (stored_args o')) (pf_grad J i (stored_args o))).
    { destruct (HJ (stored_args o') (stored_args o)) as [_ Q]; [congruence|exact HF|exact (Q i)]. }
    assert (STEP: exists g g', run_grad e (oa_gradient a) o (pf_dcall J i) (if oa_nl a then s_fields_nl s (pol_comp (s_pol s)) else s_fields s (pol_comp (s_pol s))) (stored_args o) s = (s, Ok g) /\
      run_grad e (oa_gradient a) o' (pf_dcall J i) (if oa_nl a then s_fields_nl s' (pol_comp (s_pol s')) else s_fields s' (pol_comp (s_pol s'))) (stored_args o') s' = (s', Ok g') /\ agree (s_M s) g' g).
    { rewrite (run_grad_settings e (oa_gradient a) o o') by exact HS.
      destruct Ha as [[Hg Hc] Hn]. rewrite Hn in *. rewrite A1, Hp. cbn [pol_comp]. rewrite HX, HX'.
      assert (D1: pf_dcall J i (stored_args o) = Ok (pf_grad J i (stored_args o))) by (unfold pf_dcall; rewrite HL, Nat.eqb_refl; reflexivity).
      assert (D2: pf_dcall J i (stored_args o') = Ok (pf_grad J i (stored_args o'))) by (unfold pf_dcall; rewrite HL', Nat.eqb_refl; reflexivity).
      assert (HV: veq (s_M s) (vneg (pf_grad J i (stored_args o'))) (vneg (pf_grad J i (stored_args o)))) by (intros k Hk; unfold vneg; rewrite (HG k Hk); reflexivity).
      rewrite Hg. destruct Hc as [Ec|[Ec|Ec]]; rewrite Ec; cbn [GRADIENT_MAP run_grad]; unfold g_linear_Ez, g_linear_Hxy; rewrite D1, D2; cbn [rbind].
      - destruct (finish_alike e o s s' X X' _ _ He HN HA HXX HV) as (g & g' & Q1 & Q2 & Q3). exists g, g'. rewrite Q1, Q2. auto.
      - assert (HB: veq (s_M s) (b_aj_Hx s' (vneg (pf_grad J i (stored_args o')))) (b_aj_Hx s (vneg (pf_grad J i (stored_args o))))).
        { unfold b_aj_Hx. rewrite A2, A3, A7, EM. intros k Hk. unfold vscal. f_equal. apply mv_ext_v, HV. }
        destruct (finish_alike e o s s' X X' _ _ He HN HA HXX HB) as (g & g' & Q1 & Q2 & Q3). exists g, g'. rewrite Q1, Q2. auto.
      - assert (HB: veq (s_M s) (b_aj_Hy s' (vneg (pf_grad J i (stored_args o')))) (b_aj_Hy s (vneg (pf_grad J i (stored_args o))))).
        { unfold b_aj_Hy. rewrite A2, A3, A7, EM. intros k Hk. unfold vscal. f_equal. apply mv_ext_v, HV. }
        destruct (finish_alike e o s s' X X' _ _ He HN HA HXX HB) as (g & g' & Q1 & Q2 & Q3). exists g, g'. rewrite Q1, Q2. auto. }
    destruct STEP as (g & g' & S1 & S2 & S3). rewrite S1, S2. apply IH; [exact Hl'|]. intros k Hk. cbv beta. rewrite (Hacc k Hk), (S3 k Hk). reflexivity.
Qed.

(** ** One evaluation *)
Definition base_ready (e : env) (J : pyfun) (args : list obj_arg) (o : opt) (s : sim) : Prop :=
  solver_exact e /\ lin_ready J args o s /\ nonsingular (s_M s) (s_A s) /\ array_objective (s_M s) J /\ o_current o = false.
Lemma args_alike e args s s' : solver_exact e -> s_pol s = PolEz -> nonsingular (s_M s) (s_A s) -> List.Forall lin_Ez_arg args -> alike s s' ->
  forall i, agree (s_M s) (List.nth i (List.map (fun a => field_map s' (oa_comp a) (lin_solution e s')) args) vzero)
                          (List.nth i (List.map (fun a => field_map s (oa_comp a) (lin_solution e s)) args) vzero).
Proof.
  intros He Hp HN Hl HA i. destruct (lt_dec i (List.length args)) as [L|L].
  - rewrite !(nth_map_arg _ args i vzero (mkArg Ez false grad_linear_Ez) L). apply alike_field; try assumption; [apply alike_lin; assumption|].
    apply (proj1 (Forall_forall _ _) Hl), nth_In, L.
  - rewrite !nth_overflow by (rewrite map_length; lia). intros k _. reflexivity.
Qed.
Lemma dJ_alike e J args o o' s s' : base_ready e J args o s -> cfg o o' -> o_current o' = false -> alike s s' ->
  exists o1 s1 g o1' s1' g', compute_dJ e (o, s) = ((o1, s1), Ok g) /\ compute_dJ e (o', s') = ((o1', s1'), Ok g') /\ agree (s_M s) g' g.
Proof.
  intros (He & (H1 & H2 & H3 & H4 & H5 & H6 & H7) & HN & HJ & Hc) HC Hc' HA. assert (EM := alike_M _ _ HA). assert (HA' := HA). destruct HA' as (A1 & A2 & A3 & A4 & A5 & A6 & A7 & _).
  assert (Ho': o_objective o' = set_J J args) by (rewrite (proj1 HC); exact H4).
  unfold compute_dJ. rewrite (solve_lin_args e o s J args), (solve_lin_args e o' s' J args) by (assumption || congruence).
  cbn [o_objective upd_arglist]. rewrite H4, Ho'. cbn [set_J ob_grads ob_dJ ob_args]. rewrite <- H6.
  destruct (loop_alike e (upd_arglist (List.map (fun a => field_map s (oa_comp a) (lin_solution e s)) args) o)
              (upd_arglist (List.map (fun a => field_map s' (oa_comp a) (lin_solution e s')) args) o')
              (solved e s) (solved e s') J (lin_solution e s) (lin_solution e s')) with (l := args) (i := 0) (acc := (fun _ : nat => 0%R)) (acc' := (fun _ : nat => 0%R)) as (g & g' & Q1 & Q2 & Q3); try assumption.
  - destruct HC as (C1 & C2 & C3 & C4 & C5 & C6 & _). repeat split; assumption.
  - unfold solved. cbv zeta. cbn [upd_fields s_fields]. rewrite H1. reflexivity.
  - unfold solved. cbv zeta. cbn [upd_fields s_fields]. rewrite A1, H1. reflexivity.
  - exact (alike_lin e s s' He HN HA).
  - cbn. rewrite map_length. exact H6.
  - cbn. rewrite map_length. exact H6.
  - exact (args_alike e args s s' He H1 HN H5 HA).
  - intros k _. reflexivity.
  - rewrite Q1, Q2. do 6 eexists. split; [reflexivity|]. split; [reflexivity|exact Q3].
Qed.
Lemma J_alike e J args o o' s s' : base_ready e J args o s -> cfg o o' -> o_current o' = false -> alike s s' ->
  exists o1 o1' J0, compute_J e (o, s) = ((o1, solved e s), Ok J0) /\ compute_J e (o', s') = ((upd_arglist o1' o', solved e s'), Ok J0).
Proof.
  intros (He & (H1 & H2 & H3 & H4 & H5 & H6 & H7) & HN & HJ & Hc) HC Hc' HA. assert (EM := alike_M _ _ HA). assert (HA' := HA). destruct HA' as (A1 & A2 & A3 & A4 & A5 & A6 & A7 & _).
  assert (Ho': o_objective o' = set_J J args) by (rewrite (proj1 HC); exact H4).
  rewrite (compute_J_lin e o s J args), (compute_J_lin e o' s' J args) by (assumption || congruence).
  do 3 eexists. split; [reflexivity|]. do 2 f_equal. apply HJ; [rewrite !map_length; reflexivity|]. apply args_alike; assumption.
Qed.
(** an iteration from a simulation alike evaluates to the same objective and gradient *)
Lemma eval_alike e J args o s o' s' st0 J0 st g : base_ready e J args o s -> cfg o o' -> o_current o' = false -> alike s s' ->
  compute_J e (o, s) = (st0, Ok J0) -> compute_dJ e (o, s) = (st, Ok g) ->
  exists o1 s1 g1, eval_step e (o', s') = ((o1, s1), Ok g1) /\ agree (s_M s) g1 g /\ cfg o o1 /\ alike s s1 /\ same_problem s' s1 /\
    o_objs o1 = (o_objs o' ++ [J0])%list.
Proof.
  intros HB HC Hc' HA EJ ED. assert (HB' := HB). destruct HB' as (He & (H1 & H2 & H3 & H4 & H5 & H6 & H7) & HN & HJ & Hc).
  destruct (J_alike e J args o o' s s' HB HC Hc' HA) as (q1 & Fs & J1 & E1 & E2). rewrite EJ in E1. injection E1 as _ <-.
  unfold eval_step, bind, modS. rewrite E2. cbn [fst snd]. unfold set_source_amplitude.
  assert (Hm: o_max_shift o' = None) by (destruct HC as (_ & _ & _ & _ & _ & _ & _ & _ & C9); rewrite C9; exact H7).
  cbn [o_max_shift push_amp push_obj upd_arglist]. rewrite Hm.
  set (o3 := upd_current false _). assert (C3: cfg o o3) by exact HC.
  assert (S3: same_problem s' (solved e s')) by (unfold solved; repeat split).
  destruct (dJ_alike e J args o o3 s (solved e s') HB C3 eq_refl) as (o1 & s1 & g1 & o4 & s4 & g4 & D1 & D2 & D3).
  { eapply alike_same; eassumption. }
  rewrite ED in D1. injection D1 as _ <-. rewrite D2. assert (D4 := D2). apply compute_dJ_frame in D4 as (C4 & [S4 _] & O4 & _).
  assert (S5 := same_trans _ _ _ S3 S4).
  exists o4, s4, g4. split; [reflexivity|]. split; [exact D3|]. split; [exact (cfg_trans _ _ _ C3 C4)|].
  split; [eapply alike_same; eassumption|]. split; [exact S5|]. rewrite O4. reflexivity.
Qed.
Lemma clip01_id r : (0 <= r <= 1)%R -> clip01 r = r.
Proof. intro H. unfold clip01. destruct (Rlt_dec r 0); [lra|]. destruct (Rlt_dec 1 r); lra. Qed.
(** an update that does not move the densities *)
Lemma update_alike J args e o s rho o1 s1 d step : base_ready e J args o s -> consistent s1 -> s_rho s = Val rho -> in_step o s rho -> cfg o o1 -> alike s s1 ->
  (forall k, k < s_M s -> clip01 (rho k + o_design o k * step * d k)%R = rho k) ->
  exists s2, update_rho d step (o1, s1) = ((upd_current false o1, s2), Ok tt) /\ alike s s2 /\ consistent s2.
Proof.
  intros (He & (H1 & H2 & H3 & H4 & H5 & H6 & H7) & HN & HJ & Hc) HC1 Hr HS HC HA Hd. assert (EM := alike_M _ _ HA).
  assert (HA' := HA). destruct HA' as (A1 & A2 & A3 & A4 & A5 & A6 & A7 & A8 & A9 & q & rho1 & R1 & R2 & R3). rewrite Hr in R1. injection R1 as <-.
  unfold update_rho. rewrite R2. eexists. split; [reflexivity|]. split; [|apply set_eps_consistent].
  set (r := fun k => clip01 _). 
  assert (Ir: agree (s_M s) r rho). { intros k Hk. unfold r. rewrite (R3 k Hk). destruct HC as (_ & C2 & _). rewrite C2. apply Hd, Hk. }
  change (alike s (with_density o1 s1 r)). assert (P1: s_pol s1 = PolEz) by congruence.
  destruct (with_density_A o1 s1 r P1 HC1) as (WM & WD & WA).
  assert (HE: agree (s_M s) (rho2eps (s_M s1) r (o_eps_m o1) (o_W o1) (o_eta o1) (o_beta o1)) (nd_buf (s_eps s))).
  { intros k Hk. destruct HC as (_ & _ & C3 & C4 & C5 & C6 & _). rewrite C3, C4, C5, C6, EM. rewrite (rho2eps_below (s_M s) r rho) by exact Ir. symmetry. apply HS, Hk. }
  split; [exact A1|]. split; [exact A2|]. split; [exact A3|]. split; [exact A4|]. split; [exact A5|]. split; [exact A6|].
  split; [rewrite WD; exact A7|]. split; [|split; [exact HE|exists rho, r; split; [exact Hr|split; [reflexivity|exact Ir]]]].
  apply meq_of_mv. intros X k Hk. rewrite <- EM in Hk |- * at 1. rewrite WA by exact Hk. rewrite EM in Hk. rewrite (HE k Hk), (A9 k Hk), Rminus_eq_0, Rmult_0_r, EM.
  rewrite (mv_ext (s_M s) _ _ X X A8 (veq_refl _ _) k Hk). ring.
Qed.

(** ** Any number of iterations *)
Lemma gen_rests {A} e (dir : A -> nat -> rvec -> rvec) next step J args o s rho st0 J0 st g (P : nat -> A -> Prop) :
  base_ready e J args o s -> s_rho s = Val rho -> in_step o s rho ->
  compute_J e (o, s) = (st0, Ok J0) -> compute_dJ e (o, s) = (st, Ok g) ->
  (forall i a gr, P i a -> agree (s_M s) gr g ->
     (forall k, k < s_M s -> clip01 (rho k + o_design o k * step * dir a i gr k)%R = rho k) /\ P (S i) (next a gr)) ->
  forall n i a o' s', P i a -> cfg o o' -> o_current o' = false -> consistent s' -> alike s s' ->
  exists o2 s2, gen e dir next step n i a (o', s') = ((o2, s2), Ok tt) /\ alike s s2 /\ o_objs o2 = (o_objs o' ++ List.repeat J0 n)%list.
Proof.
  intros HB Hr HS EJ ED HP. induction n as [|n IH]; intros i a o' s' Pa HC Hc' Hs' HA.
  - exists o', s'. split; [reflexivity|]. split; [exact HA|]. cbn [List.repeat]. rewrite app_nil_r. reflexivity.
  - cbn [gen]. unfold bind. destruct (eval_alike e J args o s o' s' st0 J0 st g HB HC Hc' HA EJ ED) as (o1 & s1 & g1 & E1 & Q1 & Q2 & Q3 & Q4 & Q5).
    rewrite E1. destruct (HP i a g1 Pa Q1) as [HD Pn].
    destruct (update_alike J args e o s rho o1 s1 (dir a i g1) step HB (consistent_same _ _ Q4 Hs') Hr HS Q2 Q3 HD) as (s2 & E2 & U1 & U2).
    rewrite E2. destruct (IH (S i) (next a g1) (upd_current false o1) s2 Pn Q2 eq_refl U2 U1) as (o3 & s3 & E3 & V1 & V2).
    exists o3, s3. split; [exact E3|]. split; [exact V1|]. rewrite V2. cbn [o_objs upd_current]. rewrite Q5, <- app_assoc. reflexivity.
Qed.
Lemma stuck r d c g step : (0 <= r <= 1)%R -> (d = 0 \/ d = 1)%R -> (0 < step)%R -> (0 < c)%R ->
  (d = 1%R -> ~ ((0 < g /\ r < 1) \/ (g < 0 /\ 0 < r))%R) -> clip01 (r + d * step * (c * g))%R = r.
Proof.
  intros Hr Hd Hs Hc H. destruct Hd as [-> | ->]; [replace (r + 0 * step * (c * g))%R with r by ring; apply clip01_id, Hr|].
  specialize (H eq_refl). set (u := (step * c)%R). assert (Hu: (0 < u)%R) by (apply Rmult_lt_0_compat; assumption).
  replace (r + 1 * step * (c * g))%R with (r + u * g)%R by (unfold u; ring).
  destruct (Rlt_dec 0 g) as [G|G].
  - assert (r = 1%R) by (destruct (Rlt_dec r 1); [exfalso; apply H; left; lra|lra]). subst r. assert (0 < u * g)%R by (apply Rmult_lt_0_compat; assumption).
    unfold clip01. destruct (Rlt_dec _ 0); [lra|]. destruct (Rlt_dec _ _); lra.
  - destruct (Req_dec g 0) as [->|G0]; [rewrite Rmult_0_r, Rplus_0_r; apply clip01_id, Hr|].
    assert (r = 0%R) by (destruct (Rlt_dec 0 r); [exfalso; apply H; right; lra|lra]). subst r. assert (0 < u * - g)%R by (apply Rmult_lt_0_compat; lra).
    unfold clip01. destruct (Rlt_dec (0 + u * g) 0); [destruct (Rlt_dec 1 0); lra|lra].
Qed.
(** with a constant gradient every step of ADAM is the first one *)
Lemma constant_adam b1 b2 g i : (0 <= b1 < 1)%R -> (0 <= b2 < 1)%R ->
  adam_step b1 b2 (adam_m b1 ((1 - b1 ^ i) * g) g) (adam_v b2 ((1 - b2 ^ i) * g ^ 2) g) i = (g / (Rabs g + 1 / 10 ^ 8))%R /\
  adam_m b1 ((1 - b1 ^ i) * g) g = ((1 - b1 ^ S i) * g)%R /\ adam_v b2 ((1 - b2 ^ i) * g ^ 2) g = ((1 - b2 ^ S i) * g ^ 2)%R.
Proof.
  intros H1 H2. assert (E1: adam_m b1 ((1 - b1 ^ i) * g) g = ((1 - b1 ^ S i) * g)%R) by (unfold adam_m; cbn [pow]; ring).
  assert (E2: adam_v b2 ((1 - b2 ^ i) * g ^ 2) g = ((1 - b2 ^ S i) * g ^ 2)%R) by (unfold adam_v; cbn [pow]; ring).
  assert (HP: forall b, (0 <= b < 1)%R -> (1 - b ^ S i <> 0)%R).
  { intros b Hb. assert (b ^ S i < 1)%R; [|lra]. destruct (Req_dec b 0) as [->|N]; [rewrite pow_ne_zero by lia; lra|]. apply pow_lt_1_compat; [lra|lia]. }
  split; [|auto]. rewrite E1, E2. unfold adam_step. replace (i + 1) with (S i) by lia.
  replace ((1 - b2 ^ S i) * g ^ 2 / (1 - b2 ^ S i))%R with (Rsqr g) by (unfold Rsqr; field; apply HP; assumption).
  rewrite sqrt_Rsqr_abs. f_equal. field. apply HP; assumption.
Qed.

(* ------------------------------------------------------------------ *)
(** * C112 *)
(** A design from which no density can follow its gradient stays, for any number of steps of
    any size, and every recorded value is the objective of the design. *)
Theorem C112_stationary_designs_stay :
  forall e o s rho J args ob m b1 b2 st0 J0 st g,
  solver_exact e ->
  s_pol s = PolEz -> consistent s -> nd_size (s_src s) = s_M s -> nonsingular (s_M s) (s_A s) ->
  s_rho s = Val rho -> in_step o s rho -> (forall k, k < s_M s -> (0 <= rho k <= 1)%R) ->
  Objective J args = Ok ob -> o_objective o = ob -> array_objective (s_M s) J ->
  (forall a, In a args -> exists c, (c = "Ez" \/ c = "Hx" \/ c = "Hy")%string /\ new_obj_arg c false = Ok a) ->
  (forall k, o_design o k = 0%R \/ o_design o k = 1%R) ->
  o_current o = false -> o_max_shift o = None ->
  (m = MGD \/ m = MADAM /\ (0 <= b1 < 1)%R /\ (0 <= b2 < 1)%R) ->
  compute_J e (o, s) = (st0, Ok J0) -> compute_dJ e (o, s) = (st, Ok g) ->
  ~ can_improve s (o_design o) rho g ->
  forall n step, (0 < step)%R ->
  exists o' s' rho', run e m n step b1 b2 (o, s) = ((o', s'), Ok tt) /\
    s_rho s' = Val rho' /\ agree (s_M s) rho' rho /\ agree (s_M s) (nd_buf (s_eps s')) (nd_buf (s_eps s)) /\
    o_objs o' = (o_objs o ++ List.repeat J0 n)%list.
Proof.
  intros e o s rho J args ob m b1 b2 st0 J0 st g He Hpol HC Hsrc HN Hrho HS Hr Hob Ho HJ Ha Hdes Hcur Hms Hm EJ ED HK n step Hst.
  destruct (Objective_ok _ _ _ Hob) as [-> HL].
  assert (HA: List.Forall lin_Ez_arg args).
  { apply Forall_forall. intros a Hin. destruct (Ha a Hin) as (c & Hc & H). eapply new_arg_Ez; eassumption. }
  assert (HB: base_ready e J args o s). { split; [exact He|]. split; [repeat split; eauto|]. auto. }
  assert (HV: forall k, k < s_M s -> forall c, (0 < c)%R -> clip01 (rho k + o_design o k * step * (c * g k))%R = rho k).
  { intros k Hk c Hc. apply stuck; try assumption; [apply Hr, Hk|apply Hdes|]. intros E Q. apply HK. exists k. auto. }
  assert (Hout: forall s', alike s s' -> exists rho', s_rho s' = Val rho' /\ agree (s_M s) rho' rho /\ agree (s_M s) (nd_buf (s_eps s')) (nd_buf (s_eps s))).
  { intros s' (_ & _ & _ & _ & _ & _ & _ & _ & A9 & q & rho' & R1 & R2 & R3). rewrite Hrho in R1. injection R1 as <-. exists rho'. auto. }
  unfold run. cbn [snd fst]. rewrite Hrho. cbv zeta.
  assert (C0: cfg o (upd_current false o)) by (repeat split).
  destruct Hm as [->|(-> & H1 & H2)].
  - rewrite (gen_GD e step n 0).
    destruct (gen_rests e gd_dir gd_next step J args o s rho st0 J0 st g (fun _ _ => True) HB Hrho HS EJ ED) with (n := n) (i := 0) (a := tt) (o' := upd_current false o) (s' := s)
      as (o2 & s2 & E & Q1 & Q2); auto; [|eapply alike_refl; exact Hrho|].
    + intros i a gr _ Hg. split; [|exact I]. intros k Hk. unfold gd_dir. rewrite (Hg k Hk). rewrite <- (Rmult_1_l (g k)). apply HV; [exact Hk|lra].
    + destruct (Hout s2 Q1) as (rho' & R1 & R2 & R3). exists o2, s2, rho'. auto.
  - rewrite gen_ADAM.
    destruct (gen_rests e (ad_dir b1 b2) (ad_next b1 b2) step J args o s rho st0 J0 st g
                (fun i a => forall k, k < s_M s -> fst a k = ((1 - b1 ^ i) * g k)%R /\ snd a k = ((1 - b2 ^ i) * g k ^ 2)%R) HB Hrho HS EJ ED)
      with (n := n) (i := 0) (a := (fun _ : nat => 0%R, fun _ : nat => 0%R)) (o' := upd_current false o) (s' := s)
      as (o2 & s2 & E & Q1 & Q2); auto; [| |eapply alike_refl; exact Hrho|].
    + intros i a gr Pa Hg. split.
      * intros k Hk. unfold ad_dir. destruct (Pa k Hk) as [-> ->]. rewrite (Hg k Hk). destruct (constant_adam b1 b2 (g k) i H1 H2) as [-> _].
        assert (HP: (0 < Rabs (g k) + 1 / 10 ^ 8)%R) by (assert (Q := Rabs_pos (g k)); assert (0 < 1 / 10 ^ 8)%R by (apply Rdiv_lt_0_compat; [lra|apply pow_lt; lra]); lra).
        replace (g k / (Rabs (g k) + 1 / 10 ^ 8))%R with (/ (Rabs (g k) + 1 / 10 ^ 8) * g k)%R by (unfold Rdiv; ring). apply HV; [exact Hk|apply Rinv_0_lt_compat, HP].
      * intros k Hk. unfold ad_next. cbn [fst snd]. destruct (Pa k Hk) as [-> ->]. rewrite (Hg k Hk). destruct (constant_adam b1 b2 (g k) i H1 H2) as (_ & -> & ->). auto.
    + intros k Hk. cbn. split; ring.
    + destruct (Hout s2 Q1) as (rho' & R1 & R2 & R3). exists o2, s2, rho'. auto.
Qed.

(** Any other design is left at the first step, whatever the step size: every density of the
    design region that can follow its gradient does, and no other density moves. *)
Lemma moves r g c step : (0 <= r <= 1)%R -> (0 < step)%R -> (0 < c)%R ->
  ((0 < g /\ r < 1)%R -> (r < clip01 (r + 1 * step * (c * g)))%R) /\ ((g < 0 /\ 0 < r)%R -> (clip01 (r + 1 * step * (c * g)) < r)%R).
Proof.
  intros Hr Hs Hc. set (u := (step * c)%R). assert (Hu: (0 < u)%R) by (apply Rmult_lt_0_compat; assumption).
  replace (r + 1 * step * (c * g))%R with (r + u * g)%R by (unfold u; ring). split; intros [G1 G2].
  - assert (0 < u * g)%R by (apply Rmult_lt_0_compat; assumption). unfold clip01. destruct (Rlt_dec _ 0); [lra|]. destruct (Rlt_dec _ _); lra.
  - assert (0 < u * - g)%R by (apply Rmult_lt_0_compat; lra). unfold clip01. destruct (Rlt_dec (r + u * g) 0); [destruct (Rlt_dec 1 0); lra|]. destruct (Rlt_dec _ _); lra.
Qed.
Theorem C112_other_designs_move :
  forall e o s rho J args ob m b1 b2 st g,
  s_pol s = PolEz -> nd_size (s_src s) = s_M s ->
  s_rho s = Val rho -> (forall k, k < s_M s -> (0 <= rho k <= 1)%R) ->
  Objective J args = Ok ob -> o_objective o = ob ->
  (forall a, In a args -> exists c, (c = "Ez" \/ c = "Hx" \/ c = "Hy")%string /\ new_obj_arg c false = Ok a) ->
  (forall k, o_design o k = 0%R \/ o_design o k = 1%R) ->
  o_current o = false -> o_max_shift o = None ->
  (m = MGD \/ m = MADAM /\ (0 <= b1 < 1)%R /\ (0 <= b2 < 1)%R) ->
  compute_dJ e (o, s) = (st, Ok g) ->
  forall step, (0 < step)%R ->
  exists o' s' rho', run e m 1 step b1 b2 (o, s) = ((o', s'), Ok tt) /\ s_rho s' = Val rho' /\
    forall k, k < s_M s ->
      (o_design o k = 1%R -> (0 < g k /\ rho k < 1)%R -> (rho k < rho' k)%R) /\
      (o_design o k = 1%R -> (g k < 0 /\ 0 < rho k)%R -> (rho' k < rho k)%R) /\
      (o_design o k = 0%R \/ ~ ((0 < g k /\ rho k < 1) \/ (g k < 0 /\ 0 < rho k))%R -> rho' k = rho k).
Proof.
  intros e o s rho J args ob m b1 b2 st g Hpol Hsrc Hrho Hr Hob Ho Ha Hdes Hcur Hms Hm ED step Hst.
  destruct (Objective_ok _ _ _ Hob) as [-> HL].
  assert (HA: List.Forall lin_Ez_arg args).
  { apply Forall_forall. intros a Hin. destruct (Ha a Hin) as (c & Hc & H). eapply new_arg_Ez; eassumption. }
  assert (HR: s_rho (snd st) = Val rho). { destruct st as [o1 s1]. apply compute_dJ_frame in ED as (_ & [S1 _] & _). destruct S1 as (_ & _ & _ & _ & _ & _ & _ & _ & _ & _ & _ & _ & _ & _ & _ & E16 & _). cbn [snd]. rewrite E16. exact Hrho. }
  destruct (first_iteration e m b1 b2 o s rho J args g st Hm Hcur Ho Hpol Hsrc HA HL Hms Hrho ED HR step) as (o1 & _ & _ & E).
  do 3 eexists. split; [exact E|]. split; [reflexivity|]. intros k Hk. cbv beta. destruct (step_vector_scale m g k) as (c & Hc & ->).
  destruct (moves (rho k) (g k) c step (Hr k Hk) Hst Hc) as [M1 M2].
  split; [intros ->; exact M1|]. split; [intros ->; exact M2|].
  intro Q. apply stuck; try assumption; [apply Hr, Hk|apply Hdes|]. intros E1 Q'. destruct Q as [Q|Q]; [rewrite E1 in Q; lra|contradiction].
Qed.

(** ** A stationary design that is not trivial: 2 x 2 pixels, all in the design region and empty, a
    uniform source; the objective is the total intensity.  More material lowers the
    intensity, so every gradient is negative and every density already at its lower bound. *)
Definition low_rho : rvec := fun _ => 0%R.
Lemma intensity_array n m : array_objective n (intensity n m).
Proof.
  intros Fs Gs HL HF. split.
  - cbn [intensity pf_val]. rewrite HL. apply rsum_ext. intros i _. apply rsum_ext. intros k Hk. rewrite (HF i k Hk). reflexivity.
  - intros i k Hk. cbn [intensity pf_grad]. rewrite (HF i k Hk). reflexivity.
Qed.
Example C112_met :
  exists s0 ob, fam_sim "Ez" 2 2 0 0 (fun _ => 1%R) = Ok s0 /\
  new_obj_arg "Ez" false = Ok (mkArg Ez false grad_linear_Ez) /\ Objective (intensity 4 1) up_args = Ok ob /\ o_objective up_opt = ob /\
  let s := with_density up_opt (upd_src (mkNd 2 2 (fun _ => RtoC 1)) s0) low_rho in
  solver_exact ex_env /\ s_pol s = PolEz /\ consistent s /\ nd_size (s_src s) = s_M s /\ nonsingular (s_M s) (s_A s) /\
  s_rho s = Val low_rho /\ in_step up_opt s low_rho /\ array_objective (s_M s) (intensity 4 1) /\
  exists st0 J0 st g, compute_J ex_env (up_opt, s) = (st0, Ok J0) /\ compute_dJ ex_env (up_opt, s) = (st, Ok g) /\
    ~ can_improve s (o_design up_opt) low_rho g /\ (forall k, k < s_M s -> (g k < 0)%R).
Proof.
  destruct (fam_sim_ok "Ez" 2 2 0 0 (fun _ => 1%R) (or_introl eq_refl)) as [s0 H0].
  exists s0, (set_J (intensity 4 1) up_args). split; [exact H0|]. split; [reflexivity|]. split; [reflexivity|]. split; [reflexivity|]. intro s.
  destruct (fam_facts 2 2 0 0 (fun _ => 1%R) s0 up_opt (fun _ => RtoC 1) low_rho H0) as (F1 & F2 & F3 & F4 & F5 & F6 & F7 & F8); try lia.
  { intros k Hk. apply fam_eps_ge1; try (cbn; lra); [exact Hk|]. unfold low_rho. lra. }
  fold s in F1, F2, F3, F4, F5, F6, F7, F8. change (2 * 2) with 4 in F7.
  split; [apply ex_env_exact|]. split; [exact F1|]. split; [exact F2|]. split; [exact F3|]. split; [exact F4|]. split; [exact F5|]. split; [exact F6|].
  split; [rewrite F7; apply intensity_array|].
  assert (HA: List.Forall lin_Ez_arg up_args).
  { constructor; [|constructor]. apply (new_arg_Ez "Ez"); [auto|reflexivity]. }
  do 2 eexists.
  enough (Q: exists st g, compute_dJ ex_env (up_opt, s) = (st, Ok g) /\ (forall k, k < s_M s -> (g k < 0)%R)).
  { destruct Q as (st & g & Q1 & Q2). exists st, g. split; [apply (compute_J_lin ex_env up_opt s (intensity 4 1) up_args); assumption || reflexivity|].
    split; [exact Q1|]. split; [|exact Q2]. intros (p & Hp & _ & [[G _]|[_ G]]); [specialize (Q2 p Hp); lra|unfold low_rho in G; lra]. }
  destruct (Simulation_fields _ _ _ _ _ _ _ H0) as (E1 & E2 & E3 & E4 & E5 & E6 & E7 & E8 & P1 & P2 & E9 & EP & _ & _).
  specialize (E9 _ _ eq_refl). cbn [nd_nx nd_ny] in *. change (Z.to_nat (Z.of_nat 0)) with 0 in E9.
  assert (HO := ex_omega_pos). assert (PE := EPSILON_0_pos).
  set (v := rho2eps 4 low_rho 5 rId (1 / 2) 10 0).
  assert (Hv: (1 / 2 < v)%R) by (apply fam_eps_ge1; try lra; [lia|unfold low_rho; lra]).
  assert (Ev: forall k, k < 4 -> rho2eps 4 low_rho 5 rId (1 / 2) 10 k = v).
  { intros k Hk. unfold v, rho2eps, rho2rhot. rewrite !(rmv_id 4) by lia. reflexivity. }
  (* the matrix acts on uniform fields as a number *)
  set (z := (ex_omega * EPSILON_0 * v)%R). assert (Hz: (0 < z)%R) by (apply Rmult_lt_0_compat; [apply Rmult_lt_0_compat|]; lra).
  destruct (consistent_A s F2) as [EA _]. assert (EN: s_NPML s = (0, 0)) by exact E9.
  assert (EA': s_A s = fst (construct_A ex_omega (0, INR 2 * 1)%R (0, INR 2 * 1)%R 2 2 (s_epsC s) (0,0) PolEz 1 true)).
  { rewrite EA, EN, F1. change (s_omega s) with (s_omega s0). change (s_L0 s) with (s_L0 s0). change (s_xrange s) with (s_xrange s0). change (s_yrange s) with (s_yrange s0).
    change (s_Nx s) with (s_Nx s0). change (s_Ny s) with (s_Ny s0). rewrite E1, E2, E3, E4, E6, E7. reflexivity. }
  assert (RA: forall c k, k < 4 -> mv 4 (s_A s) (fun _ => c) k = (RtoC (ex_omega * z) * c)%C).
  { intros c k Hk. rewrite EA'. change 4 with (2 * 2) in Hk |- *. destruct (pix_bound _ _ _ Hk) as (i & j & Hi & Hj & ->).
    rewrite (mv_construct_Ez_stencil ex_omega 1 2 2 _ _ _ true 1 _ i j) by (lia || lra || apply (dL_new 2 2 1); lia). unfold laplacian.
    replace (c + c + c + c - RtoC 4 * c)%C with (RtoC 0) by (replace (RtoC 4) with (RtoC 1 + RtoC 1 + RtoC 1 + RtoC 1)%C by cring; ring).
    rewrite (F6 (pix 2 i j) ltac:(rewrite F7; exact Hk) : nd_buf (s_eps s) _ = _) || idtac.
    replace (s_epsC s (pix 2 i j)) with (RtoC v).
    2: { unfold s_epsC, cvec. rewrite (F6 (pix 2 i j) ltac:(rewrite F7; exact Hk)), F7. symmetry. f_equal. apply Ev. exact Hk. }
    unfold Cdiv. rewrite <- RtoC_mult. replace (ex_omega ^ 2 * (EPSILON_0 * 1) * v)%R with (ex_omega * z)%R by (unfold z; ring). ring. }
  assert (RT: forall c k, k < 4 -> mv 4 (mT (s_A s)) (fun _ => c) k = (RtoC (ex_omega * z) * c)%C).
  { intros c k Hk. rewrite (mT_symm_mv 4) by (try exact Hk; intros i j Hi Hj; rewrite EA'; apply A_sym_no_pml; cbn; lra || lia). apply RA, Hk. }
  assert (Hwz: RtoC (ex_omega * z) <> RtoC 0) by (apply RtoC_neq0, Rgt_not_eq, Rmult_lt_0_compat; lra).
  rewrite F7 in *.
  set (X := lin_solution ex_env s). set (c0 := (Ci / RtoC z)%C).
  assert (HX: forall k, k < 4 -> X k = c0).
  { assert (Q: veq 4 X (fun _ => c0)); [|exact Q]. apply (solves_unique 4 (s_A s) _ _ (rhs s) F4); [rewrite <- F7; apply lin_solution_solves; [apply ex_env_exact|rewrite F7; exact F4]|].
    apply solves_mv. intros k Hk. rewrite RA by exact Hk. change (rhs s k) with (RtoC 1 * Ci * RtoC (s_omega s0))%C. rewrite E1. unfold c0. rewrite RtoC_mult. field. apply RtoC_neq0. lra. }
  set (b := vneg (pf_grad (intensity 4 1) 0 [X])).
  assert (Hb: forall k, k < 4 -> b k = (- (RtoC 2 * Cconj c0))%C) by (intros k Hk; unfold b, vneg; cbn [intensity pf_grad List.nth]; rewrite HX by exact Hk; reflexivity).
  destruct (solver_direct_default_ok ex_env 4 (mT (s_A s)) b) as [aj Ea].
  assert (Haj: forall k, k < 4 -> aj k = (- (RtoC 2 * Cconj c0) / RtoC (ex_omega * z))%C).
  { assert (NT := nonsingular_mT _ _ F4). assert (Q: veq 4 aj (fun _ => - (RtoC 2 * Cconj c0) / RtoC (ex_omega * z))%C); [|exact Q].
    apply (solves_unique 4 (mT (s_A s)) _ _ b NT); [exact (solver_direct_correct _ _ _ _ _ _ ex_env_exact NT Ea)|].
    apply solves_mv. intros k Hk. rewrite RT, Hb by exact Hk. field. exact Hwz. }
  unfold compute_dJ. rewrite (solve_lin_args ex_env up_opt s (intensity 4 1) up_args) by (assumption || reflexivity || (rewrite F7; assumption)).
  cbn [o_objective upd_arglist up_opt set_J ob_grads ob_dJ ob_args up_args List.map oa_gradient oa_comp intensity pf_arity List.seq List.combine field_map].
  fold X. cbn [grad_loop oa_nl run_grad]. change (s_pol (solved ex_env s)) with (s_pol s). rewrite F1. cbn [pol_comp].
  replace (s_fields (solved ex_env s) Ez) with (Some X) by (unfold solved; cbv zeta; cbn [upd_fields s_fields]; rewrite F1; reflexivity).
  unfold g_linear_Ez. cbn [stored_args upd_arglist o_arglist pf_dcall pf_arity List.length Nat.eqb rbind].
  unfold finish_linear_Ez, adjoint_linear_Ez. change (s_M (solved ex_env s)) with (s_M s). change (s_A (solved ex_env s)) with (s_A s). rewrite F7.
  change (pf_dcall (intensity 4 1) 0 [X]) with (Ok (pf_grad (intensity 4 1) 0 [X])). cbn [rbind]. fold b. rewrite Ea. cbn [rbind].
  unfold get_rho. change (s_rho (solved ex_env s)) with (s_rho s). rewrite F5. cbn [rbind].
  do 2 eexists. split; [reflexivity|]. intros k Hk. cbv beta. rewrite Rplus_0_l. unfold sensitivity.
  rewrite (csum_single 4 k); [|exact Hk|intros j Hj Hn; cbn [o_W upd_arglist up_opt]; unfold rId; destruct (Nat.eqb_spec k j); [congruence|]; ring].
  rewrite (HX k Hk), (Haj k Hk). cbn [o_W o_eps_m o_eta o_beta upd_arglist up_opt]. unfold rId at 1. rewrite Nat.eqb_refl.
  set (pr := drhob_drhot _ _ _). assert (Hpr: (0 < pr)%R) by (apply drhob_pos; lra).
  unfold dAdeps_lin. cbn [o_design upd_arglist up_opt]. change (s_omega (solved ex_env s)) with (s_omega s0). change (s_L0 (solved ex_env s)) with (s_L0 s0). rewrite E1, E2.
  unfold up_design.
  replace (RtoC (5 - 1) * (RtoC 1 * (c0 * RtoC pr * RtoC (1 * ex_omega ^ 2 * (EPSILON_0 * 1)))) * (- (RtoC 2 * Cconj c0) / RtoC (ex_omega * z)))%C
    with (RtoC (- (8 * pr / (z * z * v)))); [cbn; assert (0 < 8 * pr / (z * z * v))%R by (apply Rdiv_lt_0_compat; [lra|apply Rmult_lt_0_compat; [apply Rmult_lt_0_compat; exact Hz|lra]]); lra|].
  unfold c0, Cdiv. replace (/ RtoC z)%C with (RtoC (/ z)) by (rewrite RtoC_inv by lra; reflexivity).
  rewrite Cconj_mult, Cconj_RtoC. replace (Cconj Ci) with (- Ci)%C by (apply C_ext; simpl; lra).
  replace (/ RtoC (ex_omega * z))%C with (RtoC (/ (ex_omega * z))) by (rewrite RtoC_inv by (apply Rgt_not_eq, Rmult_lt_0_compat; lra); reflexivity).
  apply C_ext; autorewrite with reim; simpl; [|ring]. unfold z. field. repeat split; lra.
Qed.
