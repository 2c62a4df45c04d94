(** Adjoint gradients: properties C35-C40, C72. *)
From Coq Require Import Reals Lra Lia List ZArith Arith Bool String.
From Coquelicot Require Import Coquelicot.
From Verif Require Import Base Linear MCore MSim Spec PCore PSim PEx PropsCore PropsNl PropsIter MFilter PFilter PTanh PropsFilter MOpt PDiff PGrad PExOpt.
Import ListNotations.
Local Open Scope nat_scope.

(** ** Evaluation of objectives of linear fields in Ez polarization *)
Definition lin_Ez_arg (a : obj_arg) : Prop := Ez_arg a /\ oa_nl a = false.
Lemma lin_is_linear args : List.Forall lin_Ez_arg args -> forallb (fun a => negb (oa_nl a)) args = true.
Proof. intro H. apply forallb_forall. intros a Ha. rewrite (proj2 (proj1 (Forall_forall _ _) H a Ha)). reflexivity. Qed.
Lemma arg_fields_lin s args X : s_pol s = PolEz -> List.Forall lin_Ez_arg args ->
  s_fields s Ez = Some X -> s_fields s Hx = Some (field_map s Hx X) -> s_fields s Hy = Some (field_map s Hy X) ->
  arg_fields s args = Ok (List.map (fun a => field_map s (oa_comp a) X) args).
Proof.
  intros Hpol HF H1 H2 H3. induction HF as [|a l [[Hg Hc] Hn] _ IH]; [reflexivity|].
  cbn [arg_fields List.map]. rewrite Hn in *. rewrite IH. destruct Hc as [E|[E|E]]; rewrite E, ?H1, ?H2, ?H3; reflexivity.
Qed.
Definition lin_solution (e : env) (s : sim) : vec :=
  match solver_direct e (s_M s) (s_A s) (rhs s) (DEFAULT_SOLVER e) with Ok X => X | Raise _ => vzero end.
Definition solved (e : env) (s : sim) : sim :=
  let X := lin_solution e s in let D := derived_fields s (s_epsC s) false X in
  upd_fields (store3 (s_pol s) (s_fields s) (fst D, snd D, X)) s.
Lemma solve_lin_args e o s J args : o_current o = false -> o_objective o = set_J J args -> s_pol s = PolEz ->
  nd_size (s_src s) = s_M s -> List.Forall lin_Ez_arg args ->
  solve_arg_fields e (o, s) = ((upd_arglist (List.map (fun a => field_map s (oa_comp a) (lin_solution e s)) args) o, solved e s), Ok tt).
Proof.
  intros Hc Ho Hpol Hs HA. unfold solve_arg_fields, needs_solve. rewrite Hc. cbn [negb].
  destruct (solve_fields_lin e false s Hs) as [X [HX HE]]. cbv zeta in HE. rewrite HE.
  assert (HXs: lin_solution e s = X) by (unfold lin_solution; rewrite HX; reflexivity).
  unfold is_linear. rewrite Ho. cbn [set_J ob_args]. rewrite lin_is_linear by assumption.
  assert (HS: upd_fields (store3 (s_pol s) (s_fields s) (fst (derived_fields s (s_epsC s) false X), snd (derived_fields s (s_epsC s) false X), X)) s = solved e s)
    by (unfold solved; rewrite HXs; reflexivity).
  rewrite HS. rewrite HXs. rewrite (arg_fields_lin (solved e s) args X Hpol HA).
  - reflexivity.
  - rewrite <- HS, Hpol. reflexivity.
  - rewrite <- HS, Hpol. reflexivity.
  - rewrite <- HS, Hpol. reflexivity.
Qed.
Lemma compute_J_lin e o s J args : o_current o = false -> o_objective o = set_J J args -> s_pol s = PolEz ->
  nd_size (s_src s) = s_M s -> List.Forall lin_Ez_arg args -> List.length args = pf_arity J ->
  compute_J e (o, s) = ((upd_arglist (List.map (fun a => field_map s (oa_comp a) (lin_solution e s)) args) o, solved e s),
                        Ok (pf_val J (List.map (fun a => field_map s (oa_comp a) (lin_solution e s)) args))).
Proof.
  intros Hc Ho Hpol Hs HA HL. unfold compute_J, bind. rewrite (solve_lin_args e o s J args) by assumption.
  cbn [getS lift fst]. unfold lift. cbn [fst o_objective upd_arglist stored_args o_arglist]. rewrite Ho. cbn [set_J ob_J].
  unfold pf_call. rewrite map_length, HL, Nat.eqb_refl. reflexivity.
Qed.

Lemma meq_of_mv n A B : (forall X k, k < n -> mv n A X k = mv n B X k) -> meq n A B.
Proof.
  intros H i j Hi Hj. specialize (H (fun k => if Nat.eqb k j then RtoC 1 else RtoC 0) i Hi). unfold mv in H.
  rewrite !(csum_single n j) in H; [rewrite Nat.eqb_refl, !Cmult_1_r in H; exact H|assumption| |assumption|];
    intros k _ Hk; destruct (Nat.eqb_spec k j); try contradiction; ring.
Qed.
Lemma vsmall_deps o s rho p : proj_ok o -> in_step o s rho -> p < s_M s ->
  vsmall0 (s_M s) (fun t k => RtoC (kap s * deps o s rho p t k)).
Proof. intros. eapply vdiff0_small. apply (deps_diff o s rho p (fun _ => kap s)); assumption. Qed.
Lemma nonsingular_near o s rho p : s_pol s = PolEz -> consistent s -> proj_ok o -> in_step o s rho -> p < s_M s ->
  nonsingular (s_M s) (s_A s) ->
  exists d, (0 < d)%R /\ forall t, (Rabs t < d)%R -> nonsingular (s_M s) (s_A (with_density o s (rho_at rho p t))).
Proof.
  intros Hpol HC HP HS Hp HN. destruct (nonsingular_perturb (s_M s) (s_A s) _ HN (vsmall_deps o s rho p HP HS Hp)) as (d & Hd & H).
  exists d. split; [exact Hd|]. intros t Ht. eapply nonsingular_ext; [|apply (H t Ht)].
  apply meq_of_mv. intros X k Hk. rewrite mv_mplus, mv_diag by assumption.
  symmetry. apply (with_density_A o s (rho_at rho p t) Hpol HC); assumption.
Qed.
Lemma field_map_density o s r c X : s_pol s = PolEz -> consistent s -> field_map (with_density o s r) c X = field_map s c X.
Proof.
  intros Hpol HC. destruct (with_density_A o s r Hpol HC) as (EM & ED & _).
  unfold field_map, derived_fields. change (s_pol (with_density o s r)) with (s_pol s). rewrite Hpol. cbv zeta. rewrite ED. reflexivity.
Qed.
Lemma in_step_A o s rho p : s_pol s = PolEz -> consistent s -> in_step o s rho ->
  meq (s_M s) (s_A (with_density o s (rho_at rho p 0%R))) (s_A s).
Proof.
  intros Hpol HC HS. apply meq_of_mv. intros X k Hk. destruct (with_density_A o s (rho_at rho p 0%R) Hpol HC) as (_ & _ & H). rewrite H by assumption.
  rewrite rho2eps_at_0, (HS k Hk), Rminus_eq_0, Rmult_0_r. ring.
Qed.

(** the same along a line of densities *)
Lemma nonsingular_near_dir o s rho d : s_pol s = PolEz -> consistent s -> proj_ok o -> in_step o s rho ->
  nonsingular (s_M s) (s_A s) ->
  exists r, (0 < r)%R /\ forall t, (Rabs t < r)%R -> nonsingular (s_M s) (s_A (with_density o s (rho_dir rho d t))).
Proof.
  intros Hpol HC HP HS HN.
  destruct (nonsingular_perturb (s_M s) (s_A s) _ HN (vdiff0_small _ _ _ (ddeps_diff o s rho d (fun _ => kap s) HP HS))) as (r & Hr & H).
  exists r. split; [exact Hr|]. intros t Ht. eapply nonsingular_ext; [|apply (H t Ht)].
  apply meq_of_mv. intros X k Hk. rewrite mv_mplus, mv_diag by assumption.
  symmetry. apply (with_density_A o s (rho_dir rho d t) Hpol HC); assumption.
Qed.
Lemma in_step_A_dir o s rho d : s_pol s = PolEz -> consistent s -> in_step o s rho ->
  meq (s_M s) (s_A (with_density o s (rho_dir rho d 0%R))) (s_A s).
Proof.
  intros Hpol HC HS. apply meq_of_mv. intros X k Hk. destruct (with_density_A o s (rho_dir rho d 0%R) Hpol HC) as (_ & _ & H). rewrite H by assumption.
  rewrite rho_dir_0, (HS k Hk), Rminus_eq_0, Rmult_0_r. ring.
Qed.

(** Central result for linear objectives and any filter matrix: there are
    sensitivities Sn (the derivatives with respect to the filtered densities) such that the
    gradient returned is sum_j W[p,j] design[j] Sn[j], while the true derivative is
    sum_j W[j,p] Sn[j]. *)
Definition lin_value (e : env) (o : opt) (s : sim) (J : pyfun) (args : list obj_arg) (r : rvec) : R :=
  pf_val J (List.map (fun a => field_map s (oa_comp a) (lin_solution e (with_density o s r))) args).
Theorem linear_gradient_dir e o s rho J args :
  solver_exact e -> s_pol s = PolEz -> consistent s -> nd_size (s_src s) = s_M s -> nonsingular (s_M s) (s_A s) ->
  s_rho s = Val rho -> proj_ok o -> in_step o s rho ->
  o_current o = false -> o_objective o = set_J J args -> List.length args = pf_arity J -> List.Forall lin_Ez_arg args ->
  (forall st1 J0, compute_J e (o, s) = (st1, Ok J0) ->
     is_gradient (s_M s) (pf_val J) (stored_args (fst st1)) (fun i => pf_grad J i (stored_args (fst st1)))) ->
  exists s2 g Sn, compute_dJ e (o, s) = ((upd_arglist (List.map (fun a => field_map s (oa_comp a) (lin_solution e s)) args) o, s2), Ok g) /\
    loop_state (solved e s) s2 /\
    (forall p, g p = rsum (s_M s) (fun j => o_W o p j * o_design o j * Sn j)%R) /\
    forall d : rvec,
      (forall t, exists st, compute_J e (o, with_density o s (rho_dir rho d t)) = (st, Ok (lin_value e o s J args (rho_dir rho d t)))) /\
      is_derive (fun t => lin_value e o s J args (rho_dir rho d t)) 0%R (rsum (s_M s) (fun j => rmv (s_M s) (o_W o) d j * Sn j)%R).
Proof.
  intros He Hpol HC Hsrc HN Hrho HP HS Hcur Hob HL HA HG.
  assert (HJ0 := compute_J_lin e o s J args Hcur Hob Hpol Hsrc HA HL). specialize (HG _ _ HJ0). cbn [fst] in HG.
  set (X := lin_solution e s) in *. set (Fs := List.map (fun a => field_map s (oa_comp a) X) args) in *.
  set (o1 := upd_arglist Fs o) in *. set (s1 := solved e s) in *.
  assert (HXs: forall s0, nonsingular (s_M s0) (s_A s0) -> solves (s_M s0) (s_A s0) (lin_solution e s0) (rhs s0)).
  { intros s0 HN0. unfold lin_solution. destruct (solver_direct_default_ok e (s_M s0) (s_A s0) (rhs s0)) as [Y HY]. rewrite HY.
    exact (solver_direct_correct _ _ _ _ _ _ He HN0 HY). }
  assert (HfX: s_fields s1 Ez = Some X) by (unfold s1, solved; rewrite Hpol; reflexivity).
  destruct (adjoint_main_dir e o1 s1 rho J args He Hpol HC Hrho HP HS Hob HL) as (s2 & g & Sn & G1 & G2 & G3 & G4).
  - eapply Forall_impl; [|exact HA]. intros a Ha; apply Ha.
  - eapply Forall_impl; [|exact HA]. intros a Ha. unfold arg_ready. rewrite (proj2 Ha). exists X. split; [exact HfX|exact HN].
  - unfold o1, Fs. cbn. rewrite map_length. reflexivity.
  - intros q Hq E HE. unfold o1, Fs. cbn [stored_args upd_arglist o_arglist].
    rewrite (nth_map_arg _ args q vzero (mkArg Ez false grad_linear_Ez) Hq).
    assert (Ha: lin_Ez_arg (List.nth q args (mkArg Ez false grad_linear_Ez))) by (apply (proj1 (Forall_forall _ _) HA), nth_In, Hq).
    unfold arg_field in HE. rewrite (proj2 Ha), HfX in HE. injection HE as <-. intros k _. reflexivity.
  - exact HG.
  - exists s2, g, Sn. split; [|split; [exact G2|split; [exact G3|]]].
    + unfold compute_dJ. rewrite (solve_lin_args e o s J args) by assumption. fold X Fs o1 s1. rewrite G1. reflexivity.
    + intros dr. set (st := fun t => with_density o s (rho_dir rho dr t)).
      split.
      * intro t. eexists. refine (eq_trans (compute_J_lin e o (st t) J args Hcur Hob Hpol Hsrc HA HL) _). f_equal. f_equal. unfold lin_value. f_equal.
        apply map_ext. intro a. apply field_map_density; assumption.
      * apply (G4 dr (fun _ t => lin_solution e (st t))).
        intros q Hq a. assert (Ha: lin_Ez_arg a) by (apply (proj1 (Forall_forall _ _) HA), nth_In, Hq).
        rewrite (proj2 Ha). destruct (nonsingular_near_dir o s rho dr Hpol HC HP HS HN) as (d & Hd & Hd').
        split.
        -- exists d. split; [exact Hd|]. intros t Ht. change (solves (s_M s) (s_A (st t)) (lin_solution e (st t)) (rhs s)).
           apply (HXs (st t)). exact (Hd' t Ht).
        -- intros E HE. unfold arg_field in HE. rewrite (proj2 Ha), HfX in HE. injection HE as <-.
           apply (solves_unique (s_M s) (s_A s) _ _ (rhs s) HN).
           ++ eapply solves_ext; [apply (in_step_A_dir o s rho dr Hpol HC HS)|apply veq_refl|].
              apply (HXs (st 0%R)). apply Hd'. rewrite Rabs_R0. exact Hd.
           ++ apply HXs, HN.
Qed.

Theorem linear_gradient_full e o s rho J args :
  solver_exact e -> s_pol s = PolEz -> consistent s -> nd_size (s_src s) = s_M s -> nonsingular (s_M s) (s_A s) ->
  s_rho s = Val rho -> proj_ok o -> in_step o s rho ->
  o_current o = false -> o_objective o = set_J J args -> List.length args = pf_arity J -> List.Forall lin_Ez_arg args ->
  (forall st1 J0, compute_J e (o, s) = (st1, Ok J0) ->
     is_gradient (s_M s) (pf_val J) (stored_args (fst st1)) (fun i => pf_grad J i (stored_args (fst st1)))) ->
  exists s2 g Sn, compute_dJ e (o, s) = ((upd_arglist (List.map (fun a => field_map s (oa_comp a) (lin_solution e s)) args) o, s2), Ok g) /\
    loop_state (solved e s) s2 /\
    (forall p, g p = rsum (s_M s) (fun j => o_W o p j * o_design o j * Sn j)%R) /\
    forall p, p < s_M s ->
      (forall t, exists st, compute_J e (o, with_density o s (rho_at rho p t)) = (st, Ok (lin_value e o s J args (rho_at rho p t)))) /\
      is_derive (fun t => lin_value e o s J args (rho_at rho p t)) 0%R (rsum (s_M s) (fun j => o_W o j p * Sn j)%R).
Proof.
  intros H1 H2 H3 H4 H5 H6 H7 H8 H9 H10 H11 H12 H13.
  destruct (linear_gradient_dir e o s rho J args H1 H2 H3 H4 H5 H6 H7 H8 H9 H10 H11 H12 H13) as (s2 & g & Sn & G1 & GL & G2 & G3).
  exists s2, g, Sn. split; [exact G1|]. split; [exact GL|]. split; [exact G2|]. intros p Hp. rewrite rho_at_dir.
  rewrite (rsum_ext (s_M s) _ (fun j => rmv (s_M s) (o_W o) (unitv p) j * Sn j)%R) by (intros j _; rewrite rmv_unitv by exact Hp; reflexivity).
  exact (G3 (unitv p)).
Qed.

Theorem linear_gradient_formula e o s rho J args :
  solver_exact e -> s_pol s = PolEz -> consistent s -> nd_size (s_src s) = s_M s -> nonsingular (s_M s) (s_A s) ->
  s_rho s = Val rho -> proj_ok o -> in_step o s rho ->
  o_current o = false -> o_objective o = set_J J args -> List.length args = pf_arity J -> List.Forall lin_Ez_arg args ->
  (forall st1 J0, compute_J e (o, s) = (st1, Ok J0) ->
     is_gradient (s_M s) (pf_val J) (stored_args (fst st1)) (fun i => pf_grad J i (stored_args (fst st1)))) ->
  exists st1 g Sn, compute_dJ e (o, s) = (st1, Ok g) /\
    (forall p, g p = rsum (s_M s) (fun j => o_W o p j * o_design o j * Sn j)%R) /\
    forall p, p < s_M s -> exists Jt : R -> R,
      (forall t, exists st, compute_J e (o, with_density o s (rho_at rho p t)) = (st, Ok (Jt t))) /\
      is_derive Jt 0%R (rsum (s_M s) (fun j => o_W o j p * Sn j)%R).
Proof.
  intros H1 H2 H3 H4 H5 H6 H7 H8 H9 H10 H11 H12 H13.
  destruct (linear_gradient_full e o s rho J args H1 H2 H3 H4 H5 H6 H7 H8 H9 H10 H11 H12 H13) as (s2 & g & Sn & G1 & _ & G2 & G3).
  do 3 eexists. split; [exact G1|]. split; [exact G2|]. intros p Hp. eexists. exact (G3 p Hp).
Qed.

(* ------------------------------------------------------------------ *)
(** * C35, C36: linear objectives without filter *)

(** autograd's partial derivatives of J are the gradients of J at the fields that
    compute_J evaluates it on *)
Definition differentiable_at_fields (e : env) (o : opt) (s : sim) (J : pyfun) : Prop :=
  forall st1 J0, compute_J e (o, s) = (st1, Ok J0) ->
    is_gradient (s_M s) (pf_val J) (stored_args (fst st1)) (fun i => pf_grad J i (stored_args (fst st1))).

(** Jt is the objective as a function of the density of pixel p: Jt t is what compute_J
    returns on the simulation whose density is rho + t at pixel p *)
Definition objective_of_pixel (e : env) (o : opt) (s : sim) (rho : rvec) (p : nat) (Jt : R -> R) : Prop :=
  forall t, exists st, compute_J e (o, with_density o s (rho_at rho p t)) = (st, Ok (Jt t)).

Lemma Objective_ok J args ob : Objective J args = Ok ob -> ob = set_J J args /\ List.length args = pf_arity J.
Proof.
  unfold Objective. destruct (Nat.eqb_spec (List.length args) (pf_arity J)); cbn [negb]; [|discriminate].
  intro H. injection H as <-. auto.
Qed.
Lemma new_arg_Ez c a : (c = "Ez" \/ c = "Hx" \/ c = "Hy")%string -> new_obj_arg c false = Ok a -> lin_Ez_arg a.
Proof.
  intros Hc H. unfold lin_Ez_arg, Ez_arg. destruct Hc as [-> | [-> | ->]]; unfold new_obj_arg in H; cbn in H; injection H as <-; cbn; auto 10.
Qed.

Theorem C36_linear_gradient_Ez_polarization :
  forall e o s rho J args ob,
  solver_exact e ->
  s_pol s = PolEz -> consistent s -> nd_size (s_src s) = s_M s -> nonsingular (s_M s) (s_A s) ->
  s_rho s = Val rho -> in_step o s rho ->
  Objective J args = Ok ob -> o_objective o = ob ->
  (forall a, In a args -> exists c, (c = "Ez" \/ c = "Hx" \/ c = "Hy")%string /\ new_obj_arg c false = Ok a) ->
  o_W o = rId -> o_current o = false -> (0 < o_beta o)%R -> (0 <= o_eta o <= 1)%R ->
  differentiable_at_fields e o s J ->
  exists st1 g, compute_dJ e (o, s) = (st1, Ok g) /\
  forall p, p < s_M s ->
    (o_design o p = 1%R -> exists Jt, objective_of_pixel e o s rho p Jt /\ is_derive Jt 0%R (g p)) /\
    (o_design o p = 0%R -> g p = 0%R).
Proof.
  intros e o s rho J args ob He Hpol HC Hsrc HN Hrho HS Hob Ho Ha HW Hcur Hb Het HG.
  destruct (Objective_ok _ _ _ Hob) as [-> HL].
  assert (HA: List.Forall lin_Ez_arg args).
  { apply Forall_forall. intros a Hin. destruct (Ha a Hin) as (c & Hc & H). eapply new_arg_Ez; eassumption. }
  assert (HP: proj_ok o) by (apply Rgt_not_eq, proj_den; assumption).
  destruct (linear_gradient_formula e o s rho J args He Hpol HC Hsrc HN Hrho HP HS Hcur Ho HL HA HG) as (st1 & g & Sn & H1 & H2 & H3).
  exists st1, g. split; [exact H1|]. intros p Hp.
  assert (E: g p = (o_design o p * Sn p)%R).
  { rewrite H2, HW. rewrite (rsum_single (s_M s) p); [unfold rId; rewrite Nat.eqb_refl; ring|exact Hp|].
    intros k _ Hk. unfold rId. destruct (Nat.eqb_spec p k); [subst; contradiction|ring]. }
  split.
  - intro Hd. destruct (H3 p Hp) as (Jt & HJ1 & HJ2). exists Jt. split; [exact HJ1|].
    rewrite E, Hd, Rmult_1_l. replace (Sn p) with (rsum (s_M s) (fun j => o_W o j p * Sn j)%R); [exact HJ2|].
    rewrite HW. rewrite (rsum_single (s_M s) p); [unfold rId; rewrite Nat.eqb_refl; ring|exact Hp|].
    intros k _ Hk. unfold rId. destruct (Nat.eqb_spec k p); [contradiction|ring].
  - intro Hd. rewrite E, Hd. ring.
Qed.
Theorem C35_linear_Ez_gradient :
  forall e o s rho J args ob,
  solver_exact e ->
  s_pol s = PolEz -> consistent s -> nd_size (s_src s) = s_M s -> nonsingular (s_M s) (s_A s) ->
  s_rho s = Val rho -> in_step o s rho ->
  Objective J args = Ok ob -> o_objective o = ob ->
  (forall a, In a args -> new_obj_arg "Ez" false = Ok a) ->
  o_W o = rId -> o_current o = false -> (0 < o_beta o)%R -> (0 <= o_eta o <= 1)%R ->
  differentiable_at_fields e o s J ->
  exists st1 g, compute_dJ e (o, s) = (st1, Ok g) /\
  forall p, p < s_M s ->
    (o_design o p = 1%R -> exists Jt, objective_of_pixel e o s rho p Jt /\ is_derive Jt 0%R (g p)) /\
    (o_design o p = 0%R -> g p = 0%R).
Proof.
  intros e o s rho J args ob H1 H2 H3 H4 H5 H6 H7 H8 H9 Ha. 
  apply (C36_linear_gradient_Ez_polarization e o s rho J args ob H1 H2 H3 H4 H5 H6 H7 H8 H9).
  intros a Hin. exists "Ez"%string. split; [left; reflexivity|apply Ha; exact Hin].
Qed.
(** A 5 x 4 simulation with PML, two design pixels, grey density, a two-pixel source and the
    total intensity of Ez, Hx and Hy as objective meets all hypotheses of C35 and C36. *)
Definition ex_design : rvec := fun k => if Nat.eqb k 9 then 1%R else if Nat.eqb k 10 then 1%R else 0%R.
Definition ex_rho : rvec := fun k => if Nat.eqb k 9 then (1 / 3)%R else if Nat.eqb k 10 then (1 / 2)%R else 0%R.
Definition ex_src : vec := fun k => if Nat.eqb k 5 then RtoC 1 else if Nat.eqb k 6 then Ci else RtoC 0.
Example C36_met :
  exists s0 args ob o, fam_sim "Ez" 5 4 1 1 (fun _ => 1%R) = Ok s0 /\
  Forall2 (fun c a => new_obj_arg c false = Ok a) ["Ez"; "Hx"; "Hy"]%string args /\
  Objective (intensity 20 3) args = Ok ob /\
  Optimization ob s0 ex_design 5 None (1 / 2) 10 "linear" "hybrid" None = Ok o /\
  let s := with_density o (upd_src (mkNd 5 4 ex_src) s0) ex_rho in
  s_pol s = PolEz /\ consistent s /\ nd_size (s_src s) = s_M s /\ nonsingular (s_M s) (s_A s) /\
  s_rho s = Val ex_rho /\ in_step o s ex_rho /\ o_objective o = ob /\ o_W o = rId /\ o_current o = false /\
  (0 < o_beta o)%R /\ (0 <= o_eta o <= 1)%R /\ differentiable_at_fields ex_env o s (intensity 20 3) /\
  9 < s_M s /\ o_design o 9 = 1%R /\ o_design o 8 = 0%R.
Proof.
  destruct (fam_sim_ok "Ez" 5 4 1 1 (fun _ => 1%R) (or_introl eq_refl)) as [s0 H0].
  exists s0. do 3 eexists. split; [exact H0|]. split; [repeat constructor|]. split; [reflexivity|]. split; [reflexivity|]. intro s.
  destruct (fam_facts 5 4 1 1 (fun _ => 1%R) s0 (mkOpt (set_J (intensity 20 3) [mkArg Ez false grad_linear_Ez; mkArg Hx false grad_linear_Hx; mkArg Hy false grad_linear_Hy])
     ex_design rId (1 / 2) 10 5 "linear" "hybrid" None [] [] false None) ex_src ex_rho H0) as (F1 & F2 & F3 & F4 & F5 & F6 & F7 & _); try lia.
  - intros k Hk. apply fam_eps_ge1; try (cbn; lra); [exact Hk|]. unfold ex_rho. destruct (Nat.eqb k 9); [|destruct (Nat.eqb k 10)]; lra.
  - cbv zeta in F7. cbn [o_objective o_W o_current o_beta o_eta o_design].
    split; [exact F1|]. split; [exact F2|]. split; [exact F3|]. split; [exact F4|]. split; [exact F5|]. split; [exact F6|].
    split; [reflexivity|]. split; [reflexivity|]. split; [reflexivity|]. split; [lra|]. split; [lra|]. split.
    + intros st1 J0 _. change (s_M s) with (s_M (with_density (mkOpt (set_J (intensity 20 3) [mkArg Ez false grad_linear_Ez; mkArg Hx false grad_linear_Hx; mkArg Hy false grad_linear_Hy])
     ex_design rId (1 / 2) 10 5 "linear" "hybrid" None [] [] false None) (upd_src (mkNd 5 4 ex_src) s0) ex_rho)). rewrite F7. apply intensity_gradient.
    + split; [|split; reflexivity]. change (s_M s) with (s_M (with_density (mkOpt (set_J (intensity 20 3) [mkArg Ez false grad_linear_Ez; mkArg Hx false grad_linear_Hx; mkArg Hy false grad_linear_Hy])
     ex_design rId (1 / 2) 10 5 "linear" "hybrid" None [] [] false None) (upd_src (mkNd 5 4 ex_src) s0) ex_rho)). rewrite F7. lia.
Qed.
Example C35_met :
  exists s0 args ob o, fam_sim "Ez" 5 4 1 1 (fun _ => 1%R) = Ok s0 /\
  Forall2 (fun c a => new_obj_arg c false = Ok a) ["Ez"]%string args /\
  Objective (intensity 20 1) args = Ok ob /\
  Optimization ob s0 ex_design 5 None (1 / 2) 10 "linear" "hybrid" None = Ok o /\
  let s := with_density o (upd_src (mkNd 5 4 ex_src) s0) ex_rho in
  s_pol s = PolEz /\ consistent s /\ nd_size (s_src s) = s_M s /\ nonsingular (s_M s) (s_A s) /\
  s_rho s = Val ex_rho /\ in_step o s ex_rho /\ o_objective o = ob /\ o_W o = rId /\ o_current o = false /\
  (0 < o_beta o)%R /\ (0 <= o_eta o <= 1)%R /\ differentiable_at_fields ex_env o s (intensity 20 1) /\
  9 < s_M s /\ o_design o 9 = 1%R /\ o_design o 8 = 0%R.
Proof.
  destruct (fam_sim_ok "Ez" 5 4 1 1 (fun _ => 1%R) (or_introl eq_refl)) as [s0 H0].
  exists s0. do 3 eexists. split; [exact H0|]. split; [repeat constructor|]. split; [reflexivity|]. split; [reflexivity|]. intro s.
  destruct (fam_facts 5 4 1 1 (fun _ => 1%R) s0 (mkOpt (set_J (intensity 20 1) [mkArg Ez false grad_linear_Ez])
     ex_design rId (1 / 2) 10 5 "linear" "hybrid" None [] [] false None) ex_src ex_rho H0) as (F1 & F2 & F3 & F4 & F5 & F6 & F7 & _); try lia.
  - intros k Hk. apply fam_eps_ge1; try (cbn; lra); [exact Hk|]. unfold ex_rho. destruct (Nat.eqb k 9); [|destruct (Nat.eqb k 10)]; lra.
  - cbv zeta in F7. cbn [o_objective o_W o_current o_beta o_eta o_design].
    split; [exact F1|]. split; [exact F2|]. split; [exact F3|]. split; [exact F4|]. split; [exact F5|]. split; [exact F6|].
    split; [reflexivity|]. split; [reflexivity|]. split; [reflexivity|]. split; [lra|]. split; [lra|]. split.
    + intros st1 J0 _. change (s_M s) with (s_M (with_density (mkOpt (set_J (intensity 20 1) [mkArg Ez false grad_linear_Ez])
     ex_design rId (1 / 2) 10 5 "linear" "hybrid" None [] [] false None) (upd_src (mkNd 5 4 ex_src) s0) ex_rho)). rewrite F7. apply intensity_gradient.
    + split; [|split; reflexivity]. change (s_M s) with (s_M (with_density (mkOpt (set_J (intensity 20 1) [mkArg Ez false grad_linear_Ez])
     ex_design rId (1 / 2) 10 5 "linear" "hybrid" None [] [] false None) (upd_src (mkNd 5 4 ex_src) s0) ex_rho)). rewrite F7. lia.
Qed.

(* ------------------------------------------------------------------ *)
(** * C38: with a filter *)

(** The full statement: with the filter matrix that get_W builds, compute_dJ returns the
    derivative at every design pixel. *)
Definition C38_property : Prop :=
  forall e o s rho J args ob design Rr eps_m eta beta,
  solver_exact e ->
  s_pol s = PolEz -> consistent s -> nd_size (s_src s) = s_M s -> nonsingular (s_M s) (s_A s) ->
  s_rho s = Val rho -> in_step o s rho ->
  Objective J args = Ok ob -> (forall a, In a args -> new_obj_arg "Ez" false = Ok a) ->
  (forall k, design k = 0%R \/ design k = 1%R) ->
  Optimization ob s design eps_m (Some Rr) eta beta "linear" "hybrid" None = Ok o ->
  (0 < beta)%R -> (0 <= eta <= 1)%R -> differentiable_at_fields e o s J ->
  exists st1 g, compute_dJ e (o, s) = (st1, Ok g) /\
  forall p, p < s_M s -> design p = 1%R ->
    exists Jt, objective_of_pixel e o s rho p Jt /\ is_derive Jt 0%R (g p).

(** What holds: at a design pixel p whose filter weights are symmetric within the design region
    (W[p,j] = W[j,p] for every design pixel j) the gradient is the derivative. *)
Theorem C38_filtered_gradient_partial :
  forall e o s rho J args ob design Rr eps_m eta beta fs nls ms,
  solver_exact e ->
  s_pol s = PolEz -> consistent s -> nd_size (s_src s) = s_M s -> nonsingular (s_M s) (s_A s) ->
  s_rho s = Val rho -> in_step o s rho ->
  Objective J args = Ok ob ->
  (forall a, In a args -> exists c, (c = "Ez" \/ c = "Hx" \/ c = "Hy")%string /\ new_obj_arg c false = Ok a) ->
  (forall k, design k = 0%R \/ design k = 1%R) ->
  Optimization ob s design eps_m (Some Rr) eta beta fs nls ms = Ok o ->
  (0 < beta)%R -> (0 <= eta <= 1)%R -> differentiable_at_fields e o s J ->
  exists st1 g, compute_dJ e (o, s) = (st1, Ok g) /\
  forall p, p < s_M s -> design p = 1%R ->
    (forall j, j < s_M s -> design j = 1%R -> o_W o p j = o_W o j p) ->
    exists Jt, objective_of_pixel e o s rho p Jt /\ is_derive Jt 0%R (g p).
Proof.
  intros e o s rho J args ob design Rr eps_m eta beta fs nls ms He Hpol HC Hsrc HN Hrho HS Hob Ha Hdes HO Hb Het HG.
  destruct (Objective_ok _ _ _ Hob) as [-> HL].
  assert (HA: List.Forall lin_Ez_arg args).
  { apply Forall_forall. intros a Hin. destruct (Ha a Hin) as (c & Hc & H). eapply new_arg_Ez; eassumption. }
  unfold Optimization in HO. destruct (get_W _ _ design (s_NPML s) Rr) as [W|x] eqn:EW; [|discriminate].
  injection HO as <-. cbn [o_W o_design o_objective] in *.
  set (o := mkOpt _ _ _ _ _ _ _ _ _ _ _ _ _) in *.
  assert (HP: proj_ok o) by (apply Rgt_not_eq, proj_den; assumption).
  destruct (linear_gradient_formula e o s rho J args He Hpol HC Hsrc HN Hrho HP HS eq_refl eq_refl HL HA HG) as (st1 & g & Sn & H1 & H2 & H3).
  exists st1, g. split; [exact H1|]. intros p Hp Hdp Hsym.
  destruct (H3 p Hp) as (Jt & HJ1 & HJ2). exists Jt. split; [exact HJ1|].
  replace (g p) with (rsum (s_M s) (fun j => o_W o j p * Sn j)%R); [exact HJ2|]. rewrite H2. apply rsum_ext. intros j Hj.
  change (o_W o) with W. change (o_design o) with design.
  destruct (Hdes j) as [Dj|Dj].
  - apply get_W_form in EW as (W0 & _ & E). rewrite E, Dj. destruct (Nat.eqb_spec j p) as [->|]; [|ring].
    rewrite Hdp in Dj. lra.
  - rewrite Dj, (Hsym j Hj Dj). ring.
Qed.
(** This covers every design pixel whose neighbourhood is away from the PML. *)
Lemma classic_rowed Nx Ny px py Rr i j : rowed Nx Ny px py Rr i j \/ ~ rowed Nx Ny px py Rr i j.
Proof.
  unfold rowed. destruct (in_dec Z.eq_dec (Z.of_nat i) (filter_range (Z.of_nat Rr) (Z.of_nat Nx) (Z.of_nat px)));
  destruct (in_dec Z.eq_dec (Z.of_nat j) (filter_range (Z.of_nat Rr) (Z.of_nat Ny) (Z.of_nat py))); tauto.
Qed.
Lemma filter_symmetric_deep Nx Ny design px py Rr W i j i2 j2 :
  0 < px -> 0 < py -> 0 < Rr -> get_W Nx Ny design (px, py) Rr = Ok W ->
  deep Rr px Nx i -> deep Rr py Ny j -> i2 < Nx -> j2 < Ny ->
  design (pix Ny i j) = 1%R -> design (pix Ny i2 j2) = 1%R ->
  W (pix Ny i j) (pix Ny i2 j2) = W (pix Ny i2 j2) (pix Ny i j).
Proof.
  intros Hpx Hpy HR HW Hi Hj Hi2 Hj2 D1 D2. apply get_W_form in HW as (W0 & HW0 & E). cbv zeta in E. rewrite !E, D1, D2.
  destruct (Nat.eqb_spec (pix Ny i j) (pix Ny i2 j2)) as [Heq|Hne]; [rewrite Heq, Nat.eqb_refl; reflexivity|].
  destruct (Nat.eqb_spec (pix Ny i2 j2) (pix Ny i j)); [congruence|].
  assert (Hrow: rowed Nx Ny px py Rr i j) by (apply rowed_pml; try assumption; unfold filtered, deep in *; lia).
  assert (E1: W0 (pix Ny i j) (pix Ny i2 j2) = cone (Z.of_nat Rr) (Z.of_nat i2 - Z.of_nat i) (Z.of_nat j2 - Z.of_nat j))
    by (apply (W_entry _ _ _ _ _ _ HW0); try assumption; unfold deep in *; lia).
  destruct (Z.le_gt_cases (Z.of_nat Rr) (Z.abs (Z.of_nat i2 - Z.of_nat i))) as [L1|L1];
    [|destruct (Z.le_gt_cases (Z.of_nat Rr) (Z.abs (Z.of_nat j2 - Z.of_nat j))) as [L2|L2]].
  1,2: assert (E2: W0 (pix Ny i2 j2) (pix Ny i j) = 0%R) by
    (destruct (classic_rowed Nx Ny px py Rr i2 j2) as [Hr|Hr];
      [rewrite (W_entry _ _ _ _ _ _ HW0); try assumption; try (apply (rowed_pml Nx Ny px py) in Hr; try assumption; unfold filtered, deep in *; lia); apply cone_far; lia
      |apply (W_norow _ _ _ _ _ _ HW0); assumption]);
    rewrite E1, E2, cone_far by lia; ring.
  assert (Hrow2: rowed Nx Ny px py Rr i2 j2) by (apply rowed_pml; try assumption; unfold filtered, deep in *; lia).
  rewrite E1, (W_entry _ _ _ _ _ _ HW0 i2 j2 i j) by (try assumption; unfold deep in *; lia).
  rewrite !(W_rowsum_cone _ _ _ _ _ _ HW0) by (try assumption; unfold deep in *; lia).
  replace (cone (Z.of_nat Rr) (Z.of_nat i - Z.of_nat i2) (Z.of_nat j - Z.of_nat j2))
    with (cone (Z.of_nat Rr) (Z.of_nat i2 - Z.of_nat i) (Z.of_nat j2 - Z.of_nat j)) by (unfold cone; do 4 f_equal; ring).
  reflexivity.
Qed.
Theorem C38_interior_gradient_partial :
  forall e o s rho J args ob design px py Rr eps_m eta beta fs nls ms,
  solver_exact e ->
  s_pol s = PolEz -> consistent s -> nd_size (s_src s) = s_M s -> nonsingular (s_M s) (s_A s) ->
  s_rho s = Val rho -> in_step o s rho -> s_NPML s = (px, py) -> 0 < px -> 0 < py -> 0 < Rr ->
  Objective J args = Ok ob ->
  (forall a, In a args -> exists c, (c = "Ez" \/ c = "Hx" \/ c = "Hy")%string /\ new_obj_arg c false = Ok a) ->
  (forall k, design k = 0%R \/ design k = 1%R) ->
  Optimization ob s design eps_m (Some Rr) eta beta fs nls ms = Ok o ->
  (0 < beta)%R -> (0 <= eta <= 1)%R -> differentiable_at_fields e o s J ->
  exists st1 g, compute_dJ e (o, s) = (st1, Ok g) /\
  forall i j, deep Rr px (s_Nx s) i -> deep Rr py (s_Ny s) j -> design (pix (s_Ny s) i j) = 1%R ->
    exists Jt, objective_of_pixel e o s rho (pix (s_Ny s) i j) Jt /\ is_derive Jt 0%R (g (pix (s_Ny s) i j)).
Proof.
  intros e o s rho J args ob design px py Rr eps_m eta beta fs nls ms He Hpol HC Hsrc HN Hrho HS HNP Hpx Hpy HR Hob Ha Hdes HO Hb Het HG.
  destruct (C38_filtered_gradient_partial e o s rho J args ob design Rr eps_m eta beta fs nls ms He Hpol HC Hsrc HN Hrho HS Hob Ha Hdes HO Hb Het HG)
    as (st1 & g & H1 & H2). exists st1, g. split; [exact H1|]. intros i j Hi Hj Hd.
  apply H2; [apply flat_lt; unfold deep in *; lia|exact Hd|]. intros k Hk Dk.
  destruct (pix_bound _ _ _ Hk) as (i2 & j2 & Hi2 & Hj2 & ->).
  unfold Optimization in HO. destruct (get_W _ _ design (s_NPML s) Rr) as [W|x] eqn:EW; [|discriminate].
  injection HO as <-. cbn [o_W].
  rewrite HNP in EW. destruct HC as (C1 & C2 & _). rewrite <- C1, <- C2 in EW.
  apply (filter_symmetric_deep (s_Nx s) (s_Ny s) design px py Rr W); assumption.
Qed.

(** Linear objectives whose adjoint field is a given lam *)
Definition probe (s : sim) (lam : vec) : vec := fun k => (- mv (s_M s) (mT (s_A s)) lam k)%C.
Definition Ez_lin : obj_arg := mkArg Ez false grad_linear_Ez.
Definition probe_J (s : sim) (lam : vec) : pyfun := linear_obj (s_M s) (probe s lam).
Lemma probe_differentiable e o s lam : o_current o = false -> o_objective o = set_J (probe_J s lam) [Ez_lin] -> s_pol s = PolEz ->
  nd_size (s_src s) = s_M s -> differentiable_at_fields e o s (probe_J s lam).
Proof.
  intros Hc Ho Hpol Hs st1 J0 H. rewrite (compute_J_lin e o s (probe_J s lam) [Ez_lin]) in H; try assumption; try reflexivity.
  - injection H as <- _. apply linear_obj_gradient. reflexivity.
  - repeat constructor.
Qed.
Lemma probe_gradient e o s rho lam : solver_exact e -> o_current o = false -> o_objective o = set_J (probe_J s lam) [Ez_lin] ->
  s_pol s = PolEz -> nd_size (s_src s) = s_M s -> nonsingular (s_M s) (s_A s) -> s_rho s = Val rho ->
  exists st1 g, compute_dJ e (o, s) = (st1, Ok g) /\
  forall p, g p = rsum (s_M s) (fun j => o_W o p j * o_design o j * projf o s rho j * Re (RtoC (kap s) * lin_solution e s j * lam j)%C)%R.
Proof.
  intros He Hc Ho Hpol Hs HN Hrho. unfold compute_dJ.
  rewrite (solve_lin_args e o s (probe_J s lam) [Ez_lin]); try assumption; [|repeat constructor].
  cbn [List.map Ez_lin oa_comp field_map o_objective upd_arglist]. rewrite Ho.
  cbn [set_J ob_grads ob_dJ ob_args probe_J linear_obj pf_arity List.seq List.map List.combine grad_loop Ez_lin oa_gradient oa_nl run_grad].
  change (s_pol (solved e s)) with (s_pol s). rewrite Hpol. cbn [pol_comp].
  assert (HF: s_fields (solved e s) Ez = Some (lin_solution e s)) by (unfold solved; rewrite Hpol; reflexivity). rewrite HF.
  unfold g_linear_Ez. cbn [stored_args upd_arglist o_arglist pf_dcall List.length pf_arity]. unfold pf_dcall. cbn [List.length pf_arity Nat.eqb rbind pf_grad probe_J linear_obj].
  unfold finish_linear_Ez, adjoint_linear_Ez. change (s_M (solved e s)) with (s_M s). change (s_A (solved e s)) with (s_A s).
  destruct (solver_direct_default_ok e (s_M s) (mT (s_A s)) (vneg (probe s lam))) as [aj Haj]. rewrite Haj. cbn [rbind].
  unfold get_rho. change (s_rho (solved e s)) with (s_rho s). rewrite Hrho. cbn [rbind].
  do 2 eexists. split; [reflexivity|]. intro p. cbv beta; rewrite Rplus_0_l.
  assert (HA: veq (s_M s) aj lam).
  { apply (solves_unique (s_M s) (mT (s_A s)) _ _ (vneg (probe s lam)) (nonsingular_mT _ _ HN)).
    - exact (solver_direct_correct _ _ _ _ _ _ He (nonsingular_mT _ _ HN) Haj).
    - intros r Hr. unfold vneg, probe. unfold mv. ring. }
  etransitivity; [|etransitivity; [apply (sensitivity_Re (s_M s) o rho (lin_solution e s) (fun _ => 0%R) aj (fun _ => kap s) p)|]].
  - f_equal.
    unfold sensitivity. apply csum_ext. intros j _. cbn [o_W o_eps_m o_eta o_beta upd_arglist]. unfold dAdeps_lin, kap. cbn [o_design upd_arglist].
    change (s_omega (solved e s)) with (s_omega s). change (s_L0 (solved e s)) with (s_L0 s).
    do 4 f_equal. rewrite <- Rmult_assoc. f_equal. ring.
  - apply rsum_ext. intros j Hj. rewrite (HA j Hj). unfold projf. ring.
Qed.
Lemma lin_solution_solves e s : solver_exact e -> nonsingular (s_M s) (s_A s) -> solves (s_M s) (s_A s) (lin_solution e s) (rhs s).
Proof.
  intros He HN. unfold lin_solution. destruct (solver_direct_default_ok e (s_M s) (s_A s) (rhs s)) as [Y HY]. rewrite HY.
  exact (solver_direct_correct _ _ _ _ _ _ He HN HY).
Qed.
Lemma probe_derive e o s rho lam p Jt : solver_exact e -> o_current o = false -> o_objective o = set_J (probe_J s lam) [Ez_lin] ->
  s_pol s = PolEz -> consistent s -> nd_size (s_src s) = s_M s -> nonsingular (s_M s) (s_A s) -> s_rho s = Val rho ->
  proj_ok o -> in_step o s rho -> p < s_M s -> objective_of_pixel e o s rho p Jt ->
  is_derive Jt 0%R (rsum (s_M s) (fun j => o_W o j p * projf o s rho j * Re (RtoC (kap s) * lin_solution e s j * lam j)%C)%R).
Proof.
  intros He Hc Ho Hpol HC Hs HN Hrho HP HS Hp HJ.
  set (st := fun t => with_density o s (rho_at rho p t)).
  set (X := fun t => lin_solution e (st t)).
  assert (HJt: forall t, Jt t = pf_val (probe_J s lam) [X t]).
  { intro t. destruct (HJ t) as [st1 H]. assert (H2 := compute_J_lin e o (st t) (probe_J s lam) [Ez_lin] Hc Ho Hpol Hs ltac:(repeat constructor) eq_refl).
    rewrite (H2 : compute_J e (o, with_density o s (rho_at rho p t)) = _) in H. injection H as _ <-. reflexivity. }
  destruct (nonsingular_near o s rho p Hpol HC HP HS Hp HN) as (d & Hd & Hd').
  assert (HX: forall t, (Rabs t < d)%R -> solves (s_M s) (s_A (st t)) (X t) (rhs s)) by (intros t Ht; apply (lin_solution_solves e (st t) He (Hd' t Ht))).
  destruct (linear_solution_diff (s_M s) (s_A s) (rhs s) (fun t k => RtoC (kap s * deps o s rho p t k)) _ X d HN
      (deps_diff o s rho p (fun _ => kap s) HP HS Hp) Hd) as (x' & H1 & H2).
  { intros t Ht i Hi. rewrite <- (HX t Ht i Hi). symmetry. apply (with_density_A o s (rho_at rho p t) Hpol HC). exact Hi. }
  assert (HX0: veq (s_M s) (X 0%R) (lin_solution e s)).
  { apply (solves_unique (s_M s) (s_A s) _ _ (rhs s) HN); [|apply lin_solution_solves; assumption].
    eapply solves_ext; [apply (in_step_A o s rho p Hpol HC HS)|apply veq_refl|].
    apply HX. rewrite Rabs_R0. exact Hd. }
  apply (is_derive_ext (fun t => pf_val (probe_J s lam) [X t])); [intro t; symmetry; apply HJt|].
  evar_last. { apply (objective_derive (s_M s) (pf_val (probe_J s lam)) [X 0%R] (fun i => pf_grad (probe_J s lam) i [X 0%R]) (fun t => [X t]) (fun _ => x')).
    - apply linear_obj_gradient. reflexivity.
    - reflexivity.
    - intros i Hi. cbn in Hi. replace i with 0 by lia. exact H2. }
  cbn [List.length rsum probe_J linear_obj pf_grad]. rewrite Rplus_0_l.
  assert (E := adjoint_linear (s_M s) (s_A s) lam (fun k => mv (s_M s) (mT (s_A s)) lam k) x' (kap s) (deps' o s rho p) (lin_solution e s) ltac:(intros r Hr; reflexivity)).
  transitivity (- Re (dot (s_M s) (fun k => mv (s_M s) (mT (s_A s)) lam k) x'))%R.
  - unfold dot. rewrite !Re_csum, <- rsum_opp. apply rsum_ext. intros k _. unfold probe. rewrite <- Re_opp. f_equal. ring.
  - rewrite E.
    + apply rsum_ext. intros j _. unfold deps'. ring.
    + intros i Hi. rewrite (H1 i Hi), (HX0 i Hi). reflexivity.
Qed.

(** opt.objective = ob *)
Definition upd_objective (ob : objective) (o : opt) : opt :=
  mkOpt ob (o_design o) (o_W o) (o_eta o) (o_beta o) (o_eps_m o) (o_field_start o) (o_nl_solver o)
    (o_max_shift o) (o_src_amps o) (o_objs o) (o_current o) (o_arglist o).
Lemma tanh_sq_lt1 x : (tanh x ^ 2 < 1)%R.
Proof.
  rewrite tanh_exp. assert (H := exp_pos (2 * x)). set (u := exp (2 * x)) in *.
  assert (H1: (0 < 2 / (u + 1))%R) by (apply Rdiv_lt_0_compat; lra).
  assert (H2: (2 / (u + 1) < 2)%R) by (apply (Rmult_lt_reg_r (u + 1)); [lra|]; unfold Rdiv; rewrite Rmult_assoc, Rinv_l by lra; lra).
  nra.
Qed.
Lemma drhob_pos x eta beta : (0 < beta)%R -> (0 <= eta <= 1)%R -> (0 < drhob_drhot x eta beta)%R.
Proof.
  intros Hb He. assert (HD := proj_den eta beta Hb He). unfold drhob_drhot. apply Rdiv_lt_0_compat; [|exact HD].
  assert (H := tanh_sq_lt1 (beta * (x - eta))). nra.
Qed.
(** Conversely, wherever a design pixel's filter weights are not symmetric the gradient is wrong
    for some objective: if W[p,q] design[q] <> W[q,p] and the field is not zero at q, there
    is a linear objective of Ez for which compute_dJ returns at p something else than the derivative. *)
Theorem C38_asymmetric_filter_refuted :
  forall e o s rho p q,
  solver_exact e ->
  s_pol s = PolEz -> consistent s -> nd_size (s_src s) = s_M s -> nonsingular (s_M s) (s_A s) -> physical s ->
  s_rho s = Val rho -> in_step o s rho -> o_current o = false ->
  (0 < o_beta o)%R -> (0 <= o_eta o <= 1)%R -> o_eps_m o <> 1%R ->
  p < s_M s -> q < s_M s -> (o_W o p q * o_design o q)%R <> o_W o q p ->
  (forall X, solves (s_M s) (s_A s) X (rhs s) -> X q <> RtoC 0) ->
  exists J ob, Objective J [Ez_lin] = Ok ob /\ new_obj_arg "Ez" false = Ok Ez_lin /\
  let o' := upd_objective ob o in
  differentiable_at_fields e o' s J /\
  exists st1 g, compute_dJ e (o', s) = (st1, Ok g) /\
  forall Jt, objective_of_pixel e o' s rho p Jt -> ~ is_derive Jt 0%R (g p).
Proof.
  intros e o s rho p q He Hpol HC Hs HN HPh Hrho HS Hc Hb Het Hm Hp Hq HW HE.
  assert (HP: proj_ok o) by (apply Rgt_not_eq, proj_den; assumption).
  set (X := lin_solution e s).
  assert (HXq: X q <> RtoC 0) by (apply HE, lin_solution_solves; assumption).
  set (lam := fun j => if Nat.eqb j q then Cconj (X q) else RtoC 0).
  exists (probe_J s lam), (set_J (probe_J s lam) [Ez_lin]). split; [reflexivity|]. split; [reflexivity|]. intro o'.
  split; [apply probe_differentiable; try assumption; reflexivity|].
  destruct (probe_gradient e o' s rho lam He Hc eq_refl Hpol Hs HN Hrho) as (st1 & g & H1 & H2).
  exists st1, g. split; [exact H1|]. intros Jt HJ HD.
  assert (HD2 := probe_derive e o' s rho lam p Jt He Hc eq_refl Hpol HC Hs HN Hrho HP HS Hp HJ).
  assert (E := is_derive_unique _ _ _ HD). assert (E2 := is_derive_unique _ _ _ HD2).
  assert (E3 : g p = rsum (s_M s) (fun j => o_W o' j p * projf o' s rho j * Re (RtoC (kap s) * X j * lam j)%C)%R) by exact (eq_trans (eq_sym E) E2).
  rewrite H2 in E3.
  assert (HR: Re (RtoC (kap s) * X q * lam q)%C = (kap s * Cnorm2 (X q))%R).
  { unfold lam. rewrite Nat.eqb_refl, <- Cmult_assoc, Cmult_conj_r, <- RtoC_mult. reflexivity. }
  assert (HZ: forall j, j <> q -> Re (RtoC (kap s) * X j * lam j)%C = 0%R).
  { intros j Hj. unfold lam. destruct (Nat.eqb_spec j q); [contradiction|]. rewrite Cmult_0_r. reflexivity. }
  rewrite !(rsum_single (s_M s) q) in E3 by (try exact Hq; intros j _ Hj; fold X; rewrite (HZ j Hj); ring).
  fold X in E3. rewrite HR in E3.
  assert (K1: (0 < kap s)%R).
  { destruct HPh as (P1 & P2 & _). unfold kap. assert (PE := EPSILON_0_pos). apply Rmult_lt_0_compat; [apply Rmult_lt_0_compat|]; try assumption. nra. }
  assert (K2: (0 < Cnorm2 (X q))%R).
  { destruct (Rle_lt_or_eq_dec _ _ (Cnorm2_ge0 (X q))) as [L|L]; [exact L|]. exfalso. apply HXq, Cnorm2_eq0. congruence. }
  assert (K3: projf o s rho q <> 0%R).
  { unfold projf. apply Rmult_integral_contrapositive_currified; [lra|]. apply Rgt_not_eq, drhob_pos; assumption. }
  apply HW. apply (Rmult_eq_reg_r (projf o s rho q * (kap s * Cnorm2 (X q)))).
  - change (projf o' s rho q) with (projf o s rho q) in E3. change (o_W o') with (o_W o) in E3. change (o_design o') with (o_design o) in E3. lra.
  - apply Rmult_integral_contrapositive_currified; [exact K3|]. apply Rgt_not_eq, Rmult_lt_0_compat; assumption.
Qed.
(** A concrete case: 9 x 9 pixels, one PML pixel, filter radius 2, design pixels (4,4) and (3,4), empty
    starting structure, and a source that makes the field 1 everywhere. *)
Definition exf_design : rvec := fun k => if Nat.eqb k 40 then 1%R else if Nat.eqb k 31 then 1%R else 0%R.
Definition exf_rho : rvec := fun _ => 0%R.
Definition exf_opt (W : rmat) (ob : objective) : opt :=
  mkOpt ob exf_design W (1 / 2) 10 5 "linear" "hybrid" None [] [] false None.
Lemma exf_W : exists W, get_W 9 9 exf_design (1, 1) 2 = Ok W /\ W 31 40 = 0%R /\ W 40 31 = 1%R.
Proof.
  destruct (csr_pml_ok 9 9 1 1 2 ltac:(lia) ltac:(lia)) as [W0 HW0].
  assert (HW: exists W, get_W 9 9 exf_design (1, 1) 2 = Ok W) by (unfold get_W; cbn [fst snd]; rewrite HW0; eexists; reflexivity).
  destruct HW as [W HW]. exists W. split; [exact HW|]. apply get_W_form in HW as (W0' & HW0' & E).
  assert (W0' = W0) by congruence. subst W0'. cbv zeta in E.
  assert (N31: forall c, W0 31 c = 0%R).
  { intro c. change 31 with (pix 9 3 4). apply (W_norow _ _ _ _ _ _ HW0); [lia|]. rewrite rowed_pml by lia. unfold filtered. lia. }
  split.
  - rewrite E, N31. cbn [Nat.eqb]. ring.
  - rewrite E. rewrite (rsum_0 (9 * 9) (fun c => W0 31 c)) by (intros; apply N31). destruct (Req_EM_T 0 0); [|lra].
    change (W0 40 31) with (W0 (pix 9 4 4) (pix 9 3 4)).
    rewrite (W_entry _ _ _ _ _ _ HW0 4 4 3 4) by (try lia; apply rowed_pml; try lia; unfold filtered; lia).
    unfold cone. replace ((Z.of_nat 3 - Z.of_nat 4) * (Z.of_nat 3 - Z.of_nat 4) + (Z.of_nat 4 - Z.of_nat 4) * (Z.of_nat 4 - Z.of_nat 4))%Z with 1%Z by reflexivity.
    rewrite sqrt_1. change (Z.of_nat 2) with 2%Z. rewrite Rmax_right by lra. unfold exf_design. cbn [Nat.eqb]. lra.
Qed.
Theorem C38_filter_refuted : ~ C38_property.
Proof.
  intro HC38. destruct exf_W as (W & HW & W1 & W2).
  destruct (fam_sim_ok "Ez" 9 9 1 1 (fun _ => 1%R) (or_introl eq_refl)) as [s0 H0].
  set (ob0 := set_J (intensity 81 1) [Ez_lin]). set (o := exf_opt W ob0).
  set (s1 := with_density o (upd_src (mkNd 9 9 vzero) s0) exf_rho).
  set (src := fun k => (mv 81 (s_A s1) (fun _ => RtoC 1) k / (Ci * RtoC ex_omega))%C).
  assert (Heps: forall k, k < 9 * 9 -> (1 / 2 < rho2eps (9 * 9) exf_rho (o_eps_m o) (o_W o) (o_eta o) (o_beta o) k)%R).
  { intros k _. unfold rho2eps, rhob2eps, rho2rhot, rmv, exf_rho. rewrite rsum_0 by (intros; ring).
    destruct (C21_projection_endpoints_and_monotone (1 / 2) 10) as (P0 & _); [lra|lra|]. cbn [o o_eta o_beta o_eps_m exf_opt]. rewrite P0. lra. }
  destruct (fam_facts 9 9 1 1 (fun _ => 1%R) s0 o src exf_rho H0 ltac:(lia) ltac:(lia) Heps) as (F1 & F2 & F3 & F4 & F5 & F6 & F7 & F8).
  set (s := with_density o (upd_src (mkNd 9 9 src) s0) exf_rho) in *.
  destruct (Simulation_fields _ _ _ _ _ _ _ H0) as (E1 & E2 & E3 & E4 & _ & _ & _ & _ & _ & _ & E9 & _).
  specialize (E9 _ _ eq_refl). cbn [nd_nx nd_ny] in *.
  assert (HX: forall X, solves (s_M s) (s_A s) X (rhs s) -> X 40 <> RtoC 0).
  { intros X HX. assert (H1: solves (s_M s) (s_A s) (fun _ => RtoC 1) (rhs s)).
    { intros r Hr. unfold rhs. cbn [s_src s with_density set_eps upd_rho upd_src nd_buf]. unfold src.
      change (s_omega s) with (s_omega s0). rewrite E1. change (s_A s) with (s_A s1). rewrite F7.
      change (9 * 9) with 81. fold (mv 81 (s_A s1) (fun _ => RtoC 1) r). field. split; [apply RtoC_neq0, Rgt_not_eq, ex_omega_pos|].
      intro H. apply (f_equal Im) in H. cbn in H. lra. }
    rewrite (solves_unique _ _ _ _ _ F4 HX H1 40); [intro H; apply (f_equal Re) in H; cbn in H; lra|rewrite F7; lia]. }
  destruct (C38_asymmetric_filter_refuted ex_env o s exf_rho 31 40 ex_env_exact F1 F2 F3 F4 F8 F5 F6 eq_refl) as (J & ob & HJ & HA & HD & st1 & g & Hg & HN).
  1,2,3: cbn [o exf_opt o_beta o_eta o_eps_m]; lra.
  1,2: rewrite F7; lia.
  - cbn [o exf_opt o_W o_design]. rewrite W1, W2. lra.
  - exact HX.
  - destruct (HC38 ex_env (upd_objective ob o) s exf_rho J [Ez_lin] ob exf_design 2 5%R (1 / 2)%R 10%R) as (st1' & g' & Hg' & HT); try assumption.
    + apply ex_env_exact.
    + intros a [<-|[]]. reflexivity.
    + intro k. unfold exf_design. destruct (Nat.eqb k 40); [right; reflexivity|]. destruct (Nat.eqb k 31); auto.
    + unfold Optimization. change (nd_nx (s_eps s)) with (s_Nx s0). change (nd_ny (s_eps s)) with (s_Ny s0). change (s_NPML s) with (s_NPML s0).
      rewrite E3, E4, E9. change (Z.to_nat (Z.of_nat 1), Z.to_nat (Z.of_nat 1)) with (1, 1). rewrite HW. reflexivity.
    + lra.
    + lra.
    + destruct (HT 31 ltac:(rewrite F7; lia) eq_refl) as (Jt & HJt & HDt).
      rewrite Hg in Hg'. injection Hg' as _ <-. exact (HN Jt HJt HDt).
Qed.
(** A 13 x 13 case of C38_interior_gradient_partial: pixel (6,6) is deep; the neighbour (6,7) is a design pixel. *)
Definition exi_design : rvec := fun k => if Nat.eqb k 84 then 1%R else if Nat.eqb k 85 then 1%R else 0%R.
Example C38_met :
  exists s0 W ob, fam_sim "Ez" 13 13 1 1 (fun _ => 1%R) = Ok s0 /\ get_W 13 13 exi_design (1, 1) 2 = Ok W /\
  Objective (intensity 169 1) [Ez_lin] = Ok ob /\
  let o := mkOpt ob exi_design W (1 / 2) 10 5 "linear" "hybrid" None [] [] false None in
  let s := with_density o (upd_src (mkNd 13 13 ex_src) s0) (fun _ => 0%R) in
  Optimization ob s exi_design 5 (Some 2) (1 / 2) 10 "linear" "hybrid" None = Ok o /\
  s_pol s = PolEz /\ consistent s /\ nd_size (s_src s) = s_M s /\ nonsingular (s_M s) (s_A s) /\ s_NPML s = (1, 1) /\
  s_rho s = Val (fun _ => 0%R) /\ in_step o s (fun _ => 0%R) /\ differentiable_at_fields ex_env o s (intensity 169 1) /\
  deep 2 1 (s_Nx s) 6 /\ deep 2 1 (s_Ny s) 6 /\ exi_design (pix (s_Ny s) 6 6) = 1%R.
Proof.
  destruct (csr_pml_ok 13 13 1 1 2 ltac:(lia) ltac:(lia)) as [W0 HW0].
  assert (HW: exists W, get_W 13 13 exi_design (1, 1) 2 = Ok W) by (unfold get_W; cbn [fst snd]; rewrite HW0; eexists; reflexivity).
  destruct HW as [W HW]. destruct (fam_sim_ok "Ez" 13 13 1 1 (fun _ => 1%R) (or_introl eq_refl)) as [s0 H0].
  exists s0, W. eexists. split; [exact H0|]. split; [exact HW|]. split; [reflexivity|]. intros o s.
  assert (Heps: forall k, k < 13 * 13 -> (1 / 2 < rho2eps (13 * 13) (fun _ => 0) (o_eps_m o) (o_W o) (o_eta o) (o_beta o) k)%R).
  { intros k _. unfold rho2eps, rhob2eps, rho2rhot, rmv. rewrite rsum_0 by (intros; ring).
    destruct (C21_projection_endpoints_and_monotone (1 / 2) 10) as (P0 & _); [lra|lra|]. cbn [o o_eta o_beta o_eps_m]. rewrite P0. lra. }
  destruct (fam_facts 13 13 1 1 (fun _ => 1%R) s0 o ex_src (fun _ => 0%R) H0 ltac:(lia) ltac:(lia) Heps) as (F1 & F2 & F3 & F4 & F5 & F6 & F7 & F8).
  destruct (Simulation_fields _ _ _ _ _ _ _ H0) as (E1 & E2 & E3 & E4 & _ & _ & _ & _ & _ & _ & E9 & _).
  specialize (E9 _ _ eq_refl). cbn [nd_nx nd_ny] in *. change (Z.to_nat (Z.of_nat 1), Z.to_nat (Z.of_nat 1)) with (1, 1) in E9.
  split.
  { unfold Optimization. change (nd_nx (s_eps s)) with (s_Nx s0). change (nd_ny (s_eps s)) with (s_Ny s0). change (s_NPML s) with (s_NPML s0).
    rewrite E3, E4, E9, HW. reflexivity. }
  split; [exact F1|]. split; [exact F2|]. split; [exact F3|]. split; [exact F4|]. split; [exact E9|]. split; [exact F5|]. split; [exact F6|].
  split. { intros st1 J0 _. fold s in F7. rewrite F7. apply intensity_gradient. }
  change (s_Nx s) with (s_Nx s0). change (s_Ny s) with (s_Ny s0). rewrite E3, E4. unfold deep. repeat split; lia || reflexivity.
Qed.

(* ------------------------------------------------------------------ *)
(** * C72: check_deriv *)
(** For a linear Ez-polarization objective without filter, as the perturbation d_rho tends to 0 every
    numerical derivative that check_deriv reports tends to the analytical one reported beside it. *)

Definition same_settings (o o' : opt) : Prop :=
  o_objective o' = o_objective o /\ o_design o' = o_design o /\ o_W o' = o_W o /\ o_eta o' = o_eta o /\
  o_beta o' = o_beta o /\ o_eps_m o' = o_eps_m o.
Lemma with_density_settings o o' s r : same_settings o o' -> with_density o' s r = with_density o s r.
Proof. intros (H1 & H2 & H3 & H4 & H5 & H6). unfold with_density, opt_eps. rewrite H3, H4, H5, H6. reflexivity. Qed.
Lemma loop_state_value e o s s2 J args r : loop_state (solved e s) s2 -> s_pol s = PolEz ->
  lin_value e o s2 J args r = lin_value e o s J args r /\ s_rho s2 = s_rho s /\ s_M s2 = s_M s /\ s_pol s2 = s_pol s /\ s_src s2 = s_src s.
Proof.
  intros [-> | (E & _ & ->)] Hpol; (split; [|split; [|split; [|split]]]); reflexivity.
Qed.
Lemma gradient_veq n J (Fs Gs : list (nat -> C)) g : is_gradient n J Fs g -> List.length Gs = List.length Fs ->
  (forall i, i < List.length Fs -> veq n (List.nth i Gs vzero) (List.nth i Fs vzero)) -> J Gs = J Fs.
Proof.
  intros HG HL HV. destruct (HG 1%R Rlt_0_1) as (d & Hd & H).
  assert (HV': forall i, i < List.length Fs -> forall k, k < n ->
    List.nth i Gs (fun _ : nat => RtoC 0) k = List.nth i Fs (fun _ : nat => RtoC 0) k) by (intros i Hi k Hk; exact (HV i Hi k Hk)).
  assert (E: field_change n Fs Gs = 0%R).
  { unfold field_change. apply rsum_0. intros i Hi. apply rsum_0. intros k Hk. 
    rewrite (HV' i Hi k Hk). unfold Cminus. rewrite Cplus_opp_r. apply Cmod_0. }
  specialize (H Gs HL). rewrite E in H. specialize (H Hd).
  match type of H with (Rabs (J Gs - J Fs - ?x) <= _)%R => assert (Ex: x = 0%R) end.
  { apply rsum_0. intros i Hi. rewrite csum_0; [reflexivity|]. intros k Hk. 
    rewrite (HV' i Hi k Hk). ring. }
  rewrite Ex in H. rewrite Rmult_0_r in H. assert (H1 := Rabs_pos (J Gs - J Fs - 0)). assert (H2: Rabs (J Gs - J Fs - 0) = 0%R) by lra.
  destruct (Req_dec (J Gs - J Fs - 0) 0) as [H3|H3]; [lra|]. exfalso. exact (Rabs_no_R0 _ H3 H2).
Qed.
Definition design_pixel (n : nat) (design : rvec) (i : nat) : nat :=
  match design_pixels n design with [] => 0 | p0 :: _ => List.nth i (design_pixels n design) p0 end.
Lemma check_loop_values e o s s2 rho J args d J0 g : s_pol s = PolEz -> consistent s -> loop_state (solved e s) s2 -> s_rho s = Val rho ->
  nd_size (s_src s) = s_M s -> o_objective o = set_J J args -> List.length args = pf_arity J -> List.Forall lin_Ez_arg args ->
  design_pixels (s_M s) (o_design o) <> [] ->
  forall choices o', same_settings o o' ->
  exists o'', check_deriv_loop e d J0 g choices (o', s2) = ((o'', s2),
    Ok (List.map (fun i => g (design_pixel (s_M s) (o_design o) i)) choices,
        List.map (fun i => (lin_value e o s J args (rho_at rho (design_pixel (s_M s) (o_design o) i) d) - J0) / d)%R choices)).
Proof.
  intros Hpol HC HL Hrho Hsrc Hob HLa HA HD. assert (HC2: consistent s2) by (destruct HL as [-> | (E & _ & ->)]; exact HC). induction choices as [|i t IH]; intros o' Ho'.
  - exists o'. reflexivity.
  - destruct (loop_state_value e o s s2 J args rho HL Hpol) as (_ & L2 & L3 & L4 & L5).
    cbn [check_deriv_loop]. unfold get_rho. rewrite L2, Hrho. destruct Ho' as (S1 & S2 & S3 & S4 & S5 & S6).
    rewrite S2, L3. unfold design_pixel at 1 2. destruct (design_pixels (s_M s) (o_design o)) as [|p0 l] eqn:ED; [contradiction|].
    set (pt := List.nth i (p0 :: l) p0).
    change (fun k => if Nat.eqb k pt then (rho k + d)%R else rho k) with (rho_at rho pt d).
    change (set_eps (opt_eps o' s2 (rho_at rho pt d)) (upd_rho (Val (rho_at rho pt d)) s2)) with (with_density o' s2 (rho_at rho pt d)).
    rewrite (with_density_settings o o') by (repeat split; assumption).
    assert (HJ := compute_J_lin e (upd_current false o') (with_density o s2 (rho_at rho pt d)) J args eq_refl).
    rewrite HJ; try assumption.
    + destruct (IH (upd_arglist (List.map (fun a => field_map (with_density o s2 (rho_at rho pt d)) (oa_comp a) (lin_solution e (with_density o s2 (rho_at rho pt d)))) args) (upd_current false o'))) as [o'' HI].
      { repeat split; assumption. }
      rewrite HI. exists o''. cbn [List.map]. unfold design_pixel. rewrite ED. fold pt. repeat f_equal.
      destruct (loop_state_value e o s s2 J args (rho_at rho pt d) HL Hpol) as (<- & _). unfold lin_value.
      f_equal. apply map_ext. intro a. apply field_map_density; [congruence|exact HC2].
    + cbn [upd_current o_objective]. congruence.
    + change (s_pol (with_density o s2 (rho_at rho pt d))) with (s_pol s2). congruence.
    + change (s_src (with_density o s2 (rho_at rho pt d))) with (s_src s2). change (s_M (with_density o s2 (rho_at rho pt d))) with (s_M s2). congruence.
Qed.

Lemma uniform_delta n (P : nat -> R -> Prop) : (forall p, p < n -> exists d, (0 < d)%R /\ forall t, (Rabs t < d)%R -> P p t) ->
  exists d, (0 < d)%R /\ forall p t, p < n -> (Rabs t < d)%R -> P p t.
Proof.
  induction n as [|n IH]; intro H.
  - exists 1%R. split; [lra|]. intros; lia.
  - destruct IH as (d1 & Hd1 & H1). { intros p Hp. apply H. lia. }
    destruct (H n ltac:(lia)) as (d2 & Hd2 & H2). exists (Rmin d1 d2). split; [apply Rmin_pos; assumption|].
    intros p t Hp Ht. assert (Ha := Rmin_l d1 d2). assert (Hb := Rmin_r d1 d2).
    destruct (Nat.eq_dec p n) as [->|Hn]; [apply H2; lra|apply H1; [lia|lra]].
Qed.
Lemma derive_quotient f l : is_derive f 0%R l -> forall eps, (0 < eps)%R ->
  exists d, (0 < d)%R /\ forall t, (Rabs t < d)%R -> t <> 0%R -> (Rabs (l - (f t - f 0%R) / t) <= eps)%R.
Proof.
  intros H eps He. destruct (bound_of_derive f l H eps He) as (d & Hd & Hb). exists d. split; [exact Hd|].
  intros t Ht Hn. specialize (Hb t Ht). replace (l - (f t - f 0) / t)%R with (- ((f t - f 0 - t * l) / t))%R by (field; exact Hn).
  rewrite Rabs_Ropp. unfold Rdiv. rewrite Rabs_mult, Rabs_inv. apply (Rmult_le_reg_r (Rabs t)); [apply Rabs_pos_lt, Hn|].
  rewrite Rmult_assoc, Rinv_l by (apply Rabs_no_R0, Hn). lra.
Qed.
Lemma design_pixel_spec n design i : design_pixels n design <> [] -> design_pixel n design i < n /\ design (design_pixel n design i) = 1%R.
Proof.
  intro H. unfold design_pixel. destruct (design_pixels n design) as [|p0 l] eqn:E; [contradiction|].
  assert (HI: In (List.nth i (p0 :: l) p0) (design_pixels n design)).
  { rewrite E. destruct (Nat.lt_ge_cases i (List.length (p0 :: l))) as [Hl|Hl]; [apply nth_In, Hl|]. rewrite nth_overflow by exact Hl. left. reflexivity. }
  unfold design_pixels in HI. apply filter_In in HI. destruct HI as [H1 H2]. apply in_seq in H1.
  destruct (Req_EM_T _ _) in H2; [|discriminate H2]. split; [lia|assumption].
Qed.

Theorem C72_check_deriv_converges :
  forall e o s rho J args ob,
  let o0 := upd_current false o in
  let s' := set_eps (opt_eps o s rho) s in
  solver_exact e ->
  s_pol s = PolEz -> nd_size (s_src s) = s_M s -> nonsingular (s_M s') (s_A s') ->
  s_rho s = Val rho ->
  Objective J args = Ok ob -> o_objective o = ob -> args <> [] ->
  (forall a, In a args -> exists c, (c = "Ez" \/ c = "Hx" \/ c = "Hy")%string /\ new_obj_arg c false = Ok a) ->
  o_W o = rId -> (0 < o_beta o)%R -> (0 <= o_eta o <= 1)%R ->
  (exists p, p < s_M s /\ o_design o p = 1%R) ->
  differentiable_at_fields e o0 s' J ->
  exists g, (exists st1, compute_dJ e (o0, s') = (st1, Ok g)) /\
  forall eps, (0 < eps)%R -> exists delta, (0 < delta)%R /\
    forall d choices, d <> 0%R -> (Rabs d < delta)%R ->
    exists st an num, check_deriv e d choices (o, s) = (st, Ok (an, num)) /\
      List.length an = List.length choices /\ List.length num = List.length choices /\
      forall k, k < List.length choices ->
        (exists p, p < s_M s /\ o_design o p = 1%R /\ List.nth k an 0%R = g p) /\
        (Rabs (List.nth k an 0 - List.nth k num 0) <= eps)%R.
Proof.
  intros e o s rho J args ob o0 s' He Hpol Hsrc HN Hrho Hob Ho Hne Ha HW Hb Het (p1 & Hp1 & Hd1) HG.
  destruct (Objective_ok _ _ _ Hob) as [-> HL].
  assert (HA: List.Forall lin_Ez_arg args).
  { apply Forall_forall. intros a Hin. destruct (Ha a Hin) as (c & Hc & H). eapply new_arg_Ez; eassumption. }
  assert (HP: proj_ok o0) by (apply Rgt_not_eq, proj_den; assumption).
  assert (HS: in_step o0 s' rho) by (intros k Hk; reflexivity).
  assert (HC: consistent s') by apply set_eps_consistent.
  change (s_M s) with (s_M s') in *.
  destruct (linear_gradient_full e o0 s' rho J args He Hpol HC Hsrc HN Hrho HP HS eq_refl Ho HL HA HG) as (s2 & g & Sn & H1 & H2 & H3 & H4).
  exists g. split; [eexists; exact H1|].
  assert (E: forall p, p < s_M s' -> o_design o p = 1%R -> rsum (s_M s') (fun j => o_W o0 j p * Sn j)%R = g p).
  { intros p Hp Hd. rewrite H3. change (o_W o0) with (o_W o). change (o_design o0) with (o_design o). rewrite HW.
    rewrite (rsum_single (s_M s') p), (rsum_single (s_M s') p); try assumption.
    - unfold rId. rewrite Nat.eqb_refl, Hd. ring.
    - intros k _ Hk. unfold rId. destruct (Nat.eqb_spec p k); [subst; contradiction|ring].
    - intros k _ Hk. unfold rId. destruct (Nat.eqb_spec k p); [contradiction|ring]. }
  assert (HDne: design_pixels (s_M s') (o_design o0) <> []).
  { intro H0. assert (HI: In p1 (design_pixels (s_M s') (o_design o0))).
    { apply filter_In. split; [apply in_seq; lia|]. change (o_design o0) with (o_design o). rewrite Hd1. destruct (Req_EM_T 1 1); [reflexivity|contradiction]. }
    rewrite H0 in HI. destruct HI. }
  (* the reference value J_orig *)
  set (Fs := List.map (fun a => field_map s' (oa_comp a) (lin_solution e s')) args) in *.
  set (Jv := fun p t => lin_value e o0 s' J args (rho_at rho p t)) in *.
  assert (HJ0: forall p, p < s_M s' -> Jv p 0%R = pf_val J Fs).
  { intros p Hp. specialize (HG _ _ (compute_J_lin e o0 s' J args eq_refl Ho Hpol Hsrc HA HL)). cbn [fst] in HG. fold Fs in HG.
    cbn [stored_args upd_arglist o_arglist] in HG. apply (gradient_veq _ _ _ _ _ HG).
    - unfold Fs. rewrite !map_length. reflexivity.
    - unfold Fs at 1. rewrite map_length. intros i Hi. unfold Fs. rewrite !(nth_map_arg _ args i vzero (mkArg Ez false grad_linear_Ez) Hi).
      apply field_map_veq; [exact Hpol|]. destruct (nonsingular_near o0 s' rho p Hpol HC HP HS Hp HN) as (d & Hd & Hd').
      apply (solves_unique (s_M s') (s_A s') _ _ (rhs s') HN).
      + eapply solves_ext; [apply (in_step_A o0 s' rho p Hpol HC HS)|apply veq_refl|].
        apply (lin_solution_solves e (with_density o0 s' (rho_at rho p 0%R)) He). apply Hd'. rewrite Rabs_R0. exact Hd.
      + apply lin_solution_solves; assumption. }
  intros eps Heps.
  destruct (uniform_delta (s_M s') (fun p t => t <> 0%R -> o_design o p = 1%R -> (Rabs (g p - (Jv p t - pf_val J Fs) / t) <= eps)%R)) as (delta & Hdel & HU).
  { intros p Hp. destruct (H4 p Hp) as (_ & HDv). destruct (Req_EM_T (o_design o p) 1) as [Hd|Hd].
    - rewrite (E p Hp Hd) in HDv. destruct (derive_quotient _ _ HDv eps Heps) as (d & Hdp & Hq). exists d. split; [exact Hdp|].
      intros t Ht Hn _. rewrite <- (HJ0 p Hp). exact (Hq t Ht Hn).
    - exists 1%R. split; [lra|]. intros; contradiction. }
  exists delta. split; [exact Hdel|]. intros d choices Hn Hd.
  destruct (check_loop_values e o0 s' s2 rho J args d (pf_val J Fs) g Hpol HC H2 Hrho Hsrc Ho HL HA HDne choices (upd_arglist Fs o0)) as (o2 & HLp).
  { repeat split. }
  eexists. eexists. eexists. split; [|split; [|split]].
  - unfold check_deriv, get_rho. rewrite Hrho. fold o0 s'. rewrite H1.
    assert (HJc: compute_J e (upd_arglist Fs o0, s2) = ((upd_arglist Fs o0, s2), Ok (pf_val J Fs))).
    { unfold compute_J, bind, solve_arg_fields, needs_solve. cbn [upd_arglist o_current negb o_arglist].
      destruct Fs as [|F0 Ft] eqn:EF; [apply map_eq_nil in EF; contradiction|]. rewrite <- EF. unfold getS, lift.
      cbn [fst o_objective stored_args o_arglist]. change (o_objective (upd_arglist Fs o0)) with (o_objective o); change (stored_args (upd_arglist Fs o0)) with Fs. rewrite Ho. cbn [set_J ob_J]. unfold pf_call.
      replace (List.length Fs) with (pf_arity J) by (unfold Fs; rewrite map_length; symmetry; exact HL). rewrite Nat.eqb_refl. reflexivity. }
    rewrite HJc. exact HLp.
  - apply map_length.
  - apply map_length.
  - intros k Hk. rewrite (nth_indep _ 0%R (g (design_pixel (s_M s') (o_design o0) 0))) by (rewrite map_length; exact Hk).
    rewrite (map_nth (fun i => g (design_pixel (s_M s') (o_design o0) i))).
    match goal with |- context [List.nth k (List.map ?f choices) 0%R] => rewrite (nth_indep _ 0%R (f 0)) by (rewrite map_length; exact Hk); rewrite (map_nth f) end.
    destruct (design_pixel_spec (s_M s') (o_design o0) (List.nth k choices 0) HDne) as [D1 D2].
    split; [exists (design_pixel (s_M s') (o_design o0) (List.nth k choices 0)); auto|]. exact (HU _ d D1 Hd Hn D2).
Qed.
(** The 5 x 4 case of C36_met, before check_deriv writes the density's permittivity. *)
Example C72_met :
  exists s0 args ob o, fam_sim "Ez" 5 4 1 1 (fun _ => 1%R) = Ok s0 /\
  Forall2 (fun c a => new_obj_arg c false = Ok a) ["Ez"; "Hx"; "Hy"]%string args /\
  Objective (intensity 20 3) args = Ok ob /\
  Optimization ob s0 ex_design 5 None (1 / 2) 10 "linear" "hybrid" None = Ok o /\
  let s := upd_rho (Val ex_rho) (upd_src (mkNd 5 4 ex_src) s0) in
  let s' := set_eps (opt_eps o s ex_rho) s in
  s_pol s = PolEz /\ nd_size (s_src s) = s_M s /\ nonsingular (s_M s') (s_A s') /\
  s_rho s = Val ex_rho /\ o_objective o = ob /\ args <> [] /\ o_W o = rId /\
  (0 < o_beta o)%R /\ (0 <= o_eta o <= 1)%R /\ (exists p, p < s_M s /\ o_design o p = 1%R) /\
  differentiable_at_fields ex_env (upd_current false o) s' (intensity 20 3).
Proof.
  destruct C36_met as (s0 & args & ob & o & H0 & H1 & H2 & H3 & H).
  exists s0, args, ob, o. split; [exact H0|]. split; [exact H1|]. split; [exact H2|]. split; [exact H3|]. cbv zeta in H |- *.
  destruct H as (F1 & F2 & F3 & F4 & F5 & F6 & F7 & F8 & F9 & F10 & F11 & F12 & F13 & F14 & F15).
  change (set_eps (opt_eps o (upd_rho (Val ex_rho) (upd_src (mkNd 5 4 ex_src) s0)) ex_rho) (upd_rho (Val ex_rho) (upd_src (mkNd 5 4 ex_src) s0)))
    with (with_density o (upd_src (mkNd 5 4 ex_src) s0) ex_rho).
  split; [exact F1|]. split; [exact F3|]. split; [exact F4|]. split; [reflexivity|]. split; [exact F7|].
  split; [intro E; rewrite E in H1; inversion H1|]. split; [exact F8|]. split; [exact F10|]. split; [exact F11|].
  split; [exists 9; split; [exact F13|exact F14]|].
  replace (upd_current false o) with o; [exact F12|]. rewrite <- F9. destruct o; reflexivity.
Qed.
