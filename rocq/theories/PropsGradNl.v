(** Gradient of objectives of the nonlinear field: property C37. *)
From Coq Require Import Reals Lra Lia List ZArith Arith Bool String.
From Coquelicot Require Import Coquelicot.
From Verif Require Import Base Linear MCore MSim Spec PCore PSim PEx PropsCore PropsNl PropsIter MFilter PropsFilter MOpt PDiff PGrad PImpl PExOpt PropsGrad.
Import ListNotations.
Local Open Scope nat_scope.

(** a continuous family of exact nonlinear solutions through E as the density of pixel p varies *)
Definition solution_branch (o : opt) (s : sim) (rho : rvec) (p : nat) (E : vec) (X : R -> vec) : Prop :=
  (forall k, k < s_M s -> X 0%R k = E k) /\
  (forall eps, (0 < eps)%R -> exists d, (0 < d)%R /\ forall t k, (Rabs t < d)%R -> k < s_M s -> (Cmod (X t k - X 0%R k)%C <= eps)%R) /\
  exists d, (0 < d)%R /\ forall t, (Rabs t < d)%R -> nonlinear_solution (with_density o s (rho_at rho p t)) (X t).
Lemma vsmall0_pointwise n v : vsmall0 n v <->
  (forall eps, (0 < eps)%R -> exists d, (0 < d)%R /\ forall t k, (Rabs t < d)%R -> k < n -> (Cmod (v t k) <= eps)%R).
Proof.
  split; intros H eps He.
  - destruct (H eps He) as (d & Hd & Hb). exists d. split; [exact Hd|]. intros t k Ht Hk. eapply Rle_trans; [apply (n1_comp n (v t) k Hk)|apply Hb, Ht].
  - assert (P: (0 < INR n + 1)%R) by (assert (Q := pos_INR n); lra).
    destruct (H (eps / (INR n + 1))%R) as (d & Hd & Hb); [apply Rdiv_lt_0_compat; lra|]. exists d. split; [exact Hd|]. intros t Ht.
    eapply Rle_trans; [apply (n1_bound n (v t) (eps / (INR n + 1))); intros k Hk; apply Hb; assumption|].
    replace eps with ((INR n + 1) * (eps / (INR n + 1)))%R at 2 by (field; lra). apply Rmult_le_compat_r; [|lra]. apply Rlt_le, Rdiv_lt_0_compat; lra.
Qed.
Lemma solution_branch_branch o s rho p E X : solution_branch o s rho p E X ->
  branch o s rho p true X /\ veq (s_M s) (X 0%R) E.
Proof.
  intros (H0 & Hc & d & Hd & HX). split; [|exact H0]. exists d. split; [exact Hd|]. split; [exact HX|].
  apply vsmall0_pointwise. intros eps He. destruct (Hc eps He) as (d' & Hd' & Hb). exists d'. split; [exact Hd'|].
  intros t k Ht Hk. apply (Hb t k Ht Hk).
Qed.

(** the nonlinear equation at a nearby density, in Kerr form *)
Lemma nonlinear_at o s rho p t X : s_pol s = PolEz -> consistent s ->
  (nonlinear_solution (with_density o s (rho_at rho p t)) X <->
   forall i, i < s_M s -> (mv (s_M s) (s_A s) X i + RtoC (kap s * deps o s rho p t i) * X i
     + (kcoef s i + RtoC (kap s * kerr_dcoef (s_nl s) i * deps o s rho p t i)) * kf (X i) = rhs s i)%C).
Proof.
  intros Hpol HC. set (st := with_density o s (rho_at rho p t)).
  assert (HE: forall i, i < s_M s ->
    (mv (s_M s) (s_A s) X i + RtoC (kap s * deps o s rho p t i) * X i
     + (kcoef s i + RtoC (kap s * kerr_dcoef (s_nl s) i * deps o s rho p t i)) * kf (X i))%C =
    (csum (s_M st) (fun c => s_A st i c * X c) + RtoC (s_omega st ^ 2 * EPSILON_0 * s_L0 st * s_eps_nl (compute_nl X st) i) * X i)%C).
  { intros i Hi. change (csum (s_M st) (fun c => s_A st i c * X c)%C) with (mv (s_M s) (s_A st) X i).
    destruct (with_density_A o s (rho_at rho p t) Hpol HC) as (_ & _ & HA). unfold st at 1. rewrite HA by exact Hi.
    cbn [compute_nl upd_nlvals s_eps_nl]. rewrite sum_eps_nl_coef.
    rewrite (kerr_coef_affine _ i (nd_buf (s_eps s) i)). change (nd_buf (s_eps st) i - nd_buf (s_eps s) i)%R with (deps o s rho p t i).
    fold (deps o s rho p t i). unfold kcoef, kf, kap. change (s_nl st) with (s_nl s). change (s_omega st) with (s_omega s). change (s_L0 st) with (s_L0 s).
    rewrite <- !Cplus_assoc. f_equal. f_equal.
    replace (X i * X i * Cconj (X i))%C with (RtoC (Cnorm2 (X i)) * X i)%C by (rewrite <- Cmult_conj_r; ring).
    rewrite !RtoC_mult, !RtoC_plus, !RtoC_mult. ring. }
  split; intros H i Hi; [rewrite HE by exact Hi|rewrite <- HE by exact Hi]; exact (H i Hi).
Qed.
Lemma deps_small o s rho p (a : rvec) : proj_ok o -> in_step o s rho -> p < s_M s ->
  vsmall0 (s_M s) (fun t k => RtoC (a k * deps o s rho p t k)).
Proof. intros. eapply vdiff0_small. apply (deps_diff o s rho p a); assumption. Qed.

(** implicit function theorem: the branch exists *)
Theorem branch_exists o s rho p E : s_pol s = PolEz -> consistent s -> proj_ok o -> in_step o s rho -> p < s_M s ->
  nonlinear_solution s E -> widely_injective (s_M s) (L11 s E) (L12 s E) -> exists X, solution_branch o s rho p E X.
Proof.
  intros Hpol HC HP HS Hp HE HI.
  destruct (kerr_branch (s_M s) (s_A s) (rhs s) (kcoef s) (fun t k => RtoC (kap s * deps o s rho p t k))
     (fun t k => RtoC (kap s * kerr_dcoef (s_nl s) k * deps o s rho p t k)) E HI) as (X & d & Hd & H0 & Hs & HX).
  - apply (deps_small o s rho p (fun _ => kap s)); assumption.
  - apply (deps_small o s rho p (fun k => kap s * kerr_dcoef (s_nl s) k)%R); assumption.
  - intros i Hi. specialize (HE i Hi). unfold rhs. rewrite <- HE. cbn [compute_nl upd_nlvals s_eps_nl]. rewrite sum_eps_nl_coef.
    change (csum (s_M s) (fun c => s_A s i c * E c)%C) with (mv (s_M s) (s_A s) E i). unfold kcoef, kap, kf. f_equal.
    replace (E i * E i * Cconj (E i))%C with (RtoC (Cnorm2 (E i)) * E i)%C by (rewrite <- Cmult_conj_r; ring).
    rewrite !RtoC_mult. ring.
  - exists X. split; [exact H0|]. split.
    + intros eps He. destruct (proj1 (vsmall0_pointwise _ _) Hs eps He) as (d' & Hd' & Hb). exists d'. split; [exact Hd'|].
      intros t k Ht Hk. rewrite (H0 k Hk). apply (Hb t k Ht Hk).
    + exists d. split; [exact Hd|]. intros t Ht. apply nonlinear_at; [exact Hpol|exact HC|]. exact (HX t Ht).
Qed.

(** ** Forward solve of an objective with nonlinear arguments *)
(** the fields solve_fields stores (linear problem of s) *)
Definition linear_field (e : env) (s : sim) (c : comp) : vec :=
  match s_fields (fst (solve_fields e false false s)) c with Some F => F | None => vzero end.
Lemma arg_fields_spec s args : forall l, arg_fields s args = Ok l -> List.length l = List.length args /\
  forall q, q < List.length args -> let a := List.nth q args (mkArg Ez false grad_linear_Ez) in
    (if oa_nl a then s_fields_nl s (oa_comp a) else s_fields s (oa_comp a)) = Some (List.nth q l vzero).
Proof.
  induction args as [|a args IH]; intros l H; cbn [arg_fields] in H.
  - injection H as <-. split; [reflexivity|]. intros q Hq. cbn in Hq. lia.
  - destruct (if oa_nl a then s_fields_nl s (oa_comp a) else s_fields s (oa_comp a)) as [F|] eqn:EF; [|discriminate].
    destruct (arg_fields s args) as [Fs|]; [|discriminate]. injection H as <-. destruct (IH _ eq_refl) as [I1 I2].
    split; [cbn; rewrite I1; reflexivity|]. intros [|q] Hq; cbn [List.nth]; [exact EF|]. apply I2. cbn in Hq. lia.
Qed.
Lemma solve_args_nl e o s J args o1 s1 : o_current o = false -> o_objective o = set_J J args -> s_pol s = PolEz ->
  existsb oa_nl args = true ->
  solve_arg_fields e (o, s) = ((o1, s1), Ok tt) ->
  nd_size (s_src s) = s_M s /\ exists l, o1 = upd_arglist l o /\ same_problem s s1 /\ s_fields s1 = s_fields (solved e s) /\ arg_fields s1 args = Ok l.
Proof.
  intros Hc Ho Hpol Hnl H. unfold solve_arg_fields, needs_solve in H. rewrite Hc in H. cbn [negb] in H.
  destruct (Nat.eq_dec (nd_size (s_src s)) (s_M s)) as [Hs|Hs].
  2: { unfold solve_fields in H. destruct (Nat.eqb_spec (nd_size (s_src s)) (s_M s)); [contradiction|]. discriminate H. }
  split; [exact Hs|].
  destruct (solve_fields_lin e false s Hs) as [X [HX HE]]. cbv zeta in HE. rewrite HE in H.
  assert (HXs: lin_solution e s = X) by (unfold lin_solution; rewrite HX; reflexivity).
  assert (HS: upd_fields (store3 (s_pol s) (s_fields s) (fst (derived_fields s (s_epsC s) false X), snd (derived_fields s (s_epsC s) false X), X)) s = solved e s)
    by (unfold solved; rewrite HXs; reflexivity).
  rewrite HS in H. unfold is_linear in H. rewrite Ho in H. cbn [set_J ob_args] in H.
  replace (forallb (fun a => negb (oa_nl a)) args) with false in H.
  2: { symmetry. apply not_true_is_false. intro HF. apply existsb_exists in Hnl. destruct Hnl as (a & Ha & Hn).
       rewrite forallb_forall in HF. specialize (HF a Ha). rewrite Hn in HF. discriminate. }
  destruct (solve_fields_nl_default e (solved e s)) as [s2 [F|x]] eqn:EN; [|discriminate].
  destruct (arg_fields s2 args) as [l|] eqn:EL; [|discriminate]. injection H as <- <-.
  apply solve_nl_step_strict in EN; [|right; exact Hpol]. destruct EN as [E1 E2].
  exists l. split; [reflexivity|]. split; [eapply same_trans; [|exact E1]; repeat split|]. split; [|exact EL].
  destruct E2 as [E2|[E2 _]]; [exact E2|]. exfalso. change (s_pol (solved e s)) with (s_pol s) in E2. unfold solved in E2. cbn [s_fields upd_fields] in E2.
  rewrite store3_pol in E2. discriminate.
Qed.

(** Gradient for objectives of any mixture of the nonlinear Ez field and the linear Ez, Hx, Hy
    fields, without filter. *)
Theorem C37_mixed_gradient :
  forall e o s rho J args ob st1 J0 En,
  solver_exact e ->
  s_pol s = PolEz -> consistent s -> s_rho s = Val rho -> in_step o s rho ->
  Objective J args = Ok ob -> o_objective o = ob ->
  (exists a, In a args /\ new_obj_arg "Ez" true = Ok a) ->
  (forall a, In a args -> new_obj_arg "Ez" true = Ok a \/
     (nonsingular (s_M s) (s_A s) /\ exists c, (c = "Ez" \/ c = "Hx" \/ c = "Hy")%string /\ new_obj_arg c false = Ok a)) ->
  o_W o = rId -> o_current o = false -> (0 < o_beta o)%R -> (0 <= o_eta o <= 1)%R ->
  (* the forward solve has converged exactly to the nonlinear solution En *)
  compute_J e (o, s) = (st1, Ok J0) -> s_fields_nl (snd st1) Ez = Some En ->
  nonlinear_solution s En -> nl_current (snd st1) En ->
  widely_injective (s_M s) (nl_jac11 s En) (nl_jac12 s En) ->
  is_gradient (s_M s) (pf_val J) (stored_args (fst st1)) (fun i => pf_grad J i (stored_args (fst st1))) ->
  exists st2 g, compute_dJ e (o, s) = (st2, Ok g) /\
  forall p, p < s_M s ->
    (o_design o p = 1%R ->
       (exists X, solution_branch o s rho p En X) /\
       forall X, solution_branch o s rho p En X ->
         is_derive (fun t => pf_val J (List.map (fun a => if oa_nl a then X t
                                     else linear_field e (with_density o s (rho_at rho p t)) (oa_comp a)) args)) 0%R (g p)) /\
    (o_design o p = 0%R -> g p = 0%R).
Proof.
  intros e o s rho J args ob st1 J0 En He Hpol HC Hrho HS Hob Ho (a0 & Ha0 & Hn0) Ha HW Hcur Hb Het HJ HEn HNS HNC HI HG.
  destruct (Objective_ok _ _ _ Hob) as [-> HL].
  assert (HP: proj_ok o) by (apply Rgt_not_eq, proj_den; assumption).
  assert (HA: List.Forall (fun a => Ez_arg a /\ (oa_nl a = false -> nonsingular (s_M s) (s_A s))) args).
  { apply Forall_forall. intros a Hin. destruct (Ha a Hin) as [H|(HN & c & Hc & H)].
    - unfold new_obj_arg in H. cbn in H. injection H as <-. split; [split; reflexivity|discriminate].
    - split; [exact (proj1 (new_arg_Ez c a Hc H))|auto]. }
  assert (Hnl: existsb oa_nl args = true).
  { apply existsb_exists. exists a0. split; [exact Ha0|]. unfold new_obj_arg in Hn0. cbn in Hn0. injection Hn0 as <-. reflexivity. }
  unfold compute_J, bind in HJ. destruct (solve_arg_fields e (o, s)) as [[o1 s1] [[]|x]] eqn:EF; [|discriminate].
  unfold getS, lift in HJ. injection HJ as <- HJv. cbn [fst snd] in *.
  destruct (solve_args_nl e o s J args o1 s1 Hcur Ho Hpol Hnl EF) as (Hsrc & l & -> & HSame & HFl & HAF).
  destruct (arg_fields_spec s1 args l HAF) as [HLl HAq].
  assert (HSm := HSame). unfold same_problem in HSm.
  destruct HSm as (K1 & K2 & K3 & K4 & K5 & K6 & K7 & K8 & K9 & K10 & K11 & K12 & K13 & K14 & K15 & K16 & K17).
  assert (KM: s_M s1 = s_M s) by (unfold s_M; congruence).
  assert (Kk: kap s1 = kap s) by (unfold kap; congruence).
  assert (HIL: widely_injective (s_M s) (L11 s En) (L12 s En)).
  { destruct (nl_jac_L s En Hpol) as [Q1 Q2]. eapply widely_injective_ext; eassumption. }
  assert (HIL1: widely_injective (s_M s1) (L11 s1 En) (L12 s1 En)).
  { unfold L11, L12, kcoef in *. rewrite KM, Kk, K12, K15, K11. exact HIL. }
  assert (HfE: s_fields s1 Ez = Some (lin_solution e s)) by (rewrite HFl; unfold solved; rewrite Hpol; reflexivity).
  assert (HfX: forall c, c = Ez \/ c = Hx \/ c = Hy -> s_fields s1 c = Some (field_map s c (lin_solution e s))).
  { intros c Hc. rewrite HFl; unfold solved; rewrite Hpol. destruct Hc as [-> | [-> | ->]]; reflexivity. }
  assert (HAr: forall q, q < List.length args -> (fun a => Ez_arg a /\ (oa_nl a = false -> nonsingular (s_M s) (s_A s))) (List.nth q args (mkArg Ez false grad_linear_Ez))).
  { intros q Hq. apply (proj1 (Forall_forall _ _) HA), nth_In, Hq. }
  assert (Hfm: forall c X, field_map s1 c X = field_map s c X).
  { intros c X. unfold field_map, derived_fields, s_epsC. rewrite K4, Hpol. cbv zeta. rewrite KM, K13, K2, K1. reflexivity. }
  destruct (adjoint_main e (upd_arglist l o) s1 rho J args) as (s2 & g & Sn & G1 & G2 & G3 & G4).
  - exact He.
  - congruence.
  - eapply consistent_same; eassumption.
  - congruence.
  - exact HP.
  - intros k Hk. rewrite K11, KM. apply HS. congruence.
  - exact Ho.
  - exact HL.
  - eapply Forall_impl; [|exact HA]. intros a Hx. apply Hx.
  - eapply Forall_impl; [|exact HA]. intros a [[_ Hx] Hn]. unfold arg_ready. destruct (oa_nl a).
    + exists En. split; [exact HEn|]. split; [exact HNC|exact HIL1].
    + exists (lin_solution e s). split; [exact HfE|]. rewrite KM, K12. apply Hn. reflexivity.
  - exact HLl.
  - intros q Hq E HE. destruct (HAr q Hq) as [[_ Hc] _]. specialize (HAq q Hq). cbv zeta in HAq. unfold arg_field in HE. cbn [stored_args upd_arglist o_arglist].
    destruct (oa_nl (List.nth q args (mkArg Ez false grad_linear_Ez))).
    + rewrite Hc in *. rewrite HAq in HE. injection HE as <-. apply veq_refl.
    + rewrite HfE in HE. injection HE as <-. rewrite (HfX _ Hc) in HAq. injection HAq as <-. rewrite Hfm. apply veq_refl.
  - rewrite KM. exact HG.
  - exists (upd_arglist l o, s2), g. split.
    { unfold compute_dJ. rewrite EF. rewrite G1. reflexivity. }
    intros p Hp. rewrite KM in G3, G4.
    assert (E: g p = (o_design o p * Sn p)%R).
    { rewrite G3. cbn [upd_arglist o_W o_design]. rewrite HW. rewrite (rsum_single (s_M s) p); [unfold rId; rewrite Nat.eqb_refl; ring|exact Hp|].
      intros k _ Hk. unfold rId. destruct (Nat.eqb_spec p k); [subst; contradiction|ring]. }
    split; [|intro Hd; rewrite E, Hd; ring].
    intro Hd. split; [apply branch_exists; assumption|]. intros X HX.
    assert (Edr: rsum (s_M s) (fun j => o_W (upd_arglist l o) j p * Sn j)%R = g p).
    { rewrite E, Hd, Rmult_1_l. cbn [upd_arglist o_W]. rewrite HW. rewrite (rsum_single (s_M s) p); [unfold rId; rewrite Nat.eqb_refl; ring|exact Hp|].
      intros k _ Hk. unfold rId. destruct (Nat.eqb_spec k p); [contradiction|ring]. }
    rewrite <- Edr. destruct (solution_branch_branch o s rho p En X HX) as [BX B0].
    set (Y := fun (nl : bool) t => if nl then X t else lin_solution e (with_density o s (rho_at rho p t))).
    apply (is_derive_ext (fun t => pf_val J (List.map (fun a => field_map s1 (oa_comp a) (Y (oa_nl a) t)) args))).
    { intro t. f_equal. apply map_ext_in. intros a Hin. assert (Hax := proj1 (Forall_forall _ _) HA a Hin). destruct Hax as [[_ Hc] _].
      rewrite Hfm. unfold Y. destruct (oa_nl a).
      - rewrite Hc. reflexivity.
      - unfold linear_field. destruct (solve_fields_lin e false (with_density o s (rho_at rho p t)) Hsrc) as [Z [HZ HZE]]. cbv zeta in HZE. rewrite HZE. cbn [fst].
        unfold lin_solution. rewrite HZ. cbn [upd_fields s_fields]. change (s_pol (with_density o s (rho_at rho p t))) with (s_pol s). rewrite Hpol.
        rewrite <- (field_map_density o s (rho_at rho p t)) by assumption. destruct Hc as [-> | [-> | ->]]; reflexivity. }
    apply (G4 p Hp Y). intros q Hq a. destruct (HAr q Hq) as [[_ Hc] Hn]. fold a in Hc, Hn. unfold arg_field.
    destruct (oa_nl a) eqn:En1.
    + split.
      * destruct BX as (d & Hd' & B1 & B2). exists d. split; [exact Hd'|]. split; [|unfold Y; rewrite KM; exact B2].
        intros t Ht. refine (nonlinear_solution_same _ _ _ _ (B1 t Ht)). unfold same_problem, with_density, set_eps, opt_eps. cbn.
        assert (Kb: s_M s1 = s_M s) by exact KM. unfold s_M in *. rewrite ?K1, ?K2, ?K3, ?K4, ?K5, ?K6, ?K7, ?K8, ?K9, ?K10, ?K14, ?K15, ?K17. repeat split.
      * intros E1 HE1. rewrite HEn in HE1. injection HE1 as <-. exact B0.
    + specialize (Hn eq_refl). destruct (nonsingular_near o s rho p Hpol HC HP HS Hp Hn) as (d & Hdp & Hd').
      assert (EAt: forall t, s_A (with_density (upd_arglist l o) s1 (rho_at rho p t)) = s_A (with_density o s (rho_at rho p t))).
      { intro t. unfold with_density, set_eps, opt_eps. cbn. unfold s_M. rewrite ?K1, ?K2, ?K3, ?K4, ?K5, ?K6, ?K7, ?K9, ?K10. reflexivity. }
      split.
      * exists d. split; [exact Hdp|]. intros t Ht. rewrite KM, EAt. unfold Y. unfold rhs. rewrite K8, K2. fold (rhs s).
        exact (lin_solution_solves e (with_density o s (rho_at rho p t)) He (Hd' t Ht)).
      * intros E1 HE1. rewrite HfE in HE1. injection HE1 as <-. unfold Y.
        apply (solves_unique (s_M s) (s_A s) _ _ (rhs s) Hn).
        -- eapply solves_ext; [apply (in_step_A o s rho p Hpol HC HS)|apply veq_refl|].
           apply (lin_solution_solves e (with_density o s (rho_at rho p 0%R)) He). apply Hd'. rewrite Rabs_R0. exact Hdp.
        -- apply lin_solution_solves; assumption.
Qed.

(** When the default solver's Born iteration has come to rest, the state left behind is the one
    C37_mixed_gradient asks for. *)
Lemma nl_current_of_rest s F Fp : veq (s_M s) F Fp -> nl_current (compute_nl Fp s) F.
Proof.
  intro H. unfold nl_current. change (s_M (compute_nl Fp s)) with (s_M s). rewrite !compute_nl_twice.
  split.
  - eexists. split; [reflexivity|]. intros i j Hi Hj. cbn [compute_nl upd_nlvals s_eps_nl s_omega s_L0]. unfold spdiags, mdiag.
    destruct (Nat.eqb i j); [|reflexivity]. rewrite !sum_eps_nl_coef. rewrite (H i Hi). reflexivity.
  - intros k Hk. cbn [compute_nl upd_nlvals s_dnl_de]. rewrite !sum_dnl_de_coef. rewrite (H k Hk). reflexivity.
Qed.

(** ** A case in which the Born iteration comes to rest after two steps *)
Lemma Ez_widely_pml omega L0 Nx Ny NPML xr yr (eps : rvec) av d (D : rvec) (Q : vec) :
  (0 < omega)%R -> (fst xr < snd xr)%R -> (fst yr < snd yr)%R ->
  2 <= Nx -> 2 <= Ny -> dL Nx Ny xr yr = (d, d) -> (0 < d)%R -> (0 < L0)%R ->
  (forall k z, k < Nx * Ny -> z <> RtoC 0 ->
     (8 * Cmod z < (MU_0 * L0) * (d * d) * Cmod (RtoC (omega ^ 2 * (EPSILON_0 * L0) * eps k + D k) * z + Q k * Cconj z)%C)%R) ->
  widely_injective (Nx * Ny) (mplus (fst (construct_A omega xr yr Nx Ny (cvec eps) NPML PolEz L0 av)) (mdiag (fun k => RtoC (D k)))) (mdiag Q).
Proof.
  intros Ho Hxr Hyr HNx HNy Hd Hd0 HL He x Hx.
  set (A := fst (construct_A omega xr yr Nx Ny (cvec eps) NPML PolEz L0 av)) in *.
  destruct (max_index (Nx * Ny) x) as [p [Hp Hmax]]; [nia|].
  enough (x p = RtoC 0) as E.
  { intros j Hj. apply Cmod_eq_0. specialize (Hmax j Hj). rewrite E, Cmod_0 in Hmax. assert (0 <= Cmod (x j))%R by apply Cmod_ge_0. lra. }
  assert (H: (mv (Nx * Ny) A x p + RtoC (D p) * x p + Q p * Cconj (x p))%C = RtoC 0).
  { rewrite <- (Hx p Hp).
    change (csum (Nx * Ny) (fun c => mplus A (mdiag (fun k => RtoC (D k))) p c * x c)%C) with (mv (Nx * Ny) (mplus A (mdiag (fun k => RtoC (D k)))) x p).
    change (csum (Nx * Ny) (fun c => mdiag Q p c * Cconj (x c))%C) with (mv (Nx * Ny) (mdiag Q) (vconj x) p).
    rewrite mv_mplus, !mv_diag by assumption. reflexivity. }
  unfold A in H. rewrite mv_construct_Ez in H by exact Hp. cbv zeta in H. unfold make_derivs, Dxf, Dxb, Dyf, Dyb in H.
  destruct (Ceq_dec (x p) (RtoC 0)) as [Z|Z]; [exact Z|exfalso]. specialize (He p (x p) Hp Z).
  set (m := Cmod (x p)) in *.
  assert (HB: forall w, (Cmod (mv (Nx * Ny) (make_deriv w Fwd omega L0 Nx Ny NPML xr yr) (mv (Nx * Ny) (make_deriv w Bwd omega L0 Nx Ny NPML xr yr) x) p)
      <= 4 / (d * d) * m)%R).
  { intro w. replace (4 / (d * d) * m)%R with (2 / d * (2 / d * m))%R by (field; lra).
    apply deriv_bound; try assumption. intros j Hj. apply deriv_bound; assumption. }
  assert (Bx := HB AxX). assert (By := HB AxY). clear HB.
  set (a := mv (Nx * Ny) (make_deriv AxX Fwd omega L0 Nx Ny NPML xr yr) _ p) in *.
  set (b := mv (Nx * Ny) (make_deriv AxY Fwd omega L0 Nx Ny NPML xr yr) _ p) in *.
  assert (Hmu: (0 < MU_0 * L0)%R) by (apply Rmult_lt_0_compat; [apply MU_0_pos|lra]).
  assert (Hdd: (0 < d * d)%R) by nra.
  set (z := (RtoC (omega ^ 2 * (EPSILON_0 * L0) * eps p + D p) * x p + Q p * Cconj (x p))%C) in *.
  assert (E: (RtoC (MU_0 * L0) * z)%C = (- (a + b))%C).
  { assert (E0: (a + b + RtoC (MU_0 * L0) * z)%C = RtoC 0).
    { transitivity (RtoC (MU_0 * L0) * (RtoC (1 / (MU_0 * L0)) * (a + b) + RtoC (omega ^ 2) * (RtoC (EPSILON_0 * L0) * cvec eps p) * x p + RtoC (D p) * x p + Q p * Cconj (x p)))%C.
      - unfold cvec, z. rewrite RtoC_plus, (RtoC_mult _ (eps p)), (RtoC_mult (omega ^ 2)).
        rewrite RtoC_div by lra. field. apply RtoC_neq0; lra.
      - rewrite H. ring. }
    transitivity ((a + b + RtoC (MU_0 * L0) * z) - (a + b))%C; [ring|]. rewrite E0. ring. }
  apply (f_equal Cmod) in E. rewrite Cmod_mult, Cmod_R, Cmod_opp in E. rewrite Rabs_pos_eq in E by lra.
  assert (T := Cmod_triangle a b).
  assert (Hle: (MU_0 * L0 * Cmod z <= 8 / (d * d) * m)%R).
  { rewrite E. replace (8 / (d * d) * m)%R with (4 / (d * d) * m + 4 / (d * d) * m)%R by (field; lra). lra. }
  assert (H8: (MU_0 * L0 * Cmod z * (d * d) <= 8 * m)%R).
  { replace (8 * m)%R with (8 / (d * d) * m * (d * d))%R by (field; lra). apply Rmult_le_compat_r; lra. }
  lra.
Qed.
Lemma deriv_const w sg omega L0 Nx Ny NPML xr yr d (c : C) k :
  2 <= Nx -> 2 <= Ny -> dL Nx Ny xr yr = (d, d) -> (0 < d)%R -> k < Nx * Ny ->
  mv (Nx * Ny) (make_deriv w sg omega L0 Nx Ny NPML xr yr) (fun _ => c) k = RtoC 0.
Proof.
  intros HNx HNy Hd Hd0 Hk. rewrite make_deriv_mv by exact Hk. rewrite Hd. cbn [fst snd].
  destruct (pix_bound _ _ _ Hk) as (i & j & Hi & Hj & ->).
  destruct w, sg; rewrite ?Dxf_stencil, ?Dxb_stencil, ?Dyf_stencil, ?Dyb_stencil by (assumption || lra);
      unfold diff_xf, diff_xb, diff_yf, diff_yb; unfold Cdiv; ring.
Qed.
Lemma Ez_const omega L0 Nx Ny NPML xr yr (eps : vec) av d (c : C) k :
  2 <= Nx -> 2 <= Ny -> dL Nx Ny xr yr = (d, d) -> (0 < d)%R -> k < Nx * Ny ->
  mv (Nx * Ny) (fst (construct_A omega xr yr Nx Ny eps NPML PolEz L0 av)) (fun _ => c) k = (RtoC (omega ^ 2) * (RtoC (EPSILON_0 * L0) * eps k) * c)%C.
Proof.
  intros HNx HNy Hd Hd0 Hk. rewrite mv_construct_Ez by exact Hk. cbv zeta. unfold make_derivs, Dxf, Dxb, Dyf, Dyb.
  assert (HZ: forall w, mv (Nx * Ny) (make_deriv w Fwd omega L0 Nx Ny NPML xr yr) (mv (Nx * Ny) (make_deriv w Bwd omega L0 Nx Ny NPML xr yr) (fun _ => c)) k = RtoC 0).
  { intro w. transitivity (mv (Nx * Ny) (make_deriv w Fwd omega L0 Nx Ny NPML xr yr) (fun _ => RtoC 0) k).
    - unfold mv at 1 3. apply csum_ext. intros j Hj. f_equal. apply deriv_const with (d := d); assumption.
    - apply deriv_const with (d := d); assumption. }
  rewrite (HZ AxX), (HZ AxY). ring.
Qed.
Lemma born_two e s X0 X1 thr n : solver_exact e -> nd_size (s_src s) = s_M s -> s_fields s (pol_comp (s_pol s)) = Some X0 ->
  nonsingular (s_M s) (nl_matrix s X0) -> solves (s_M s) (nl_matrix s X0) X1 (rhs s) ->
  nonsingular (s_M s) (nl_matrix s X1) -> nonlinear_solution s X1 ->
  nrm (s_M s) X1 <> 0%R -> (0 < thr <= nrm (s_M s) (vminus X1 X0) / nrm (s_M s) X1)%R ->
  exists Fx Fy Fz Fp c, born_solve e None thr (S (S n)) false s = (compute_nl Fp s, Ok (Fx, Fy, Fz, [c; Fin 0] ++ repeat (Fin 0) n)) /\
    veq (s_M s) Fz X1 /\ veq (s_M s) Fp X1.
Proof.
  intros He Hs HF N0 S0 N1 S1 Hn Ht. unfold born_solve, start_field. rewrite HF. cbn [born_loop].
  destruct (solve_nl_ok e false X0 s Hs) as (a & b & Y1 & -> & HY1).
  assert (E1: veq (s_M s) Y1 X1) by (eapply solves_unique; [exact N0|eapply solver_direct_correct; eassumption|exact S0]).
  change (s_M (compute_nl X0 s)) with (s_M s).
  assert (EC: convergence (s_M s) Y1 X0 = Fin (nrm (s_M s) (vminus X1 X0) / nrm (s_M s) X1)).
  { unfold convergence, xdiv. rewrite (nrm_ext _ Y1 X1 E1). destruct (Req_EM_T (nrm (s_M s) X1) 0); [contradiction|].
    f_equal. f_equal. apply nrm_ext. intros k Hk. unfold vminus. rewrite (E1 k Hk). reflexivity. }
  rewrite EC. cbn [xlt]. destruct (Rlt_dec _ thr) as [HH|_]; [exfalso; lra|].
  destruct (solve_nl_ok e false Y1 (compute_nl X0 s) Hs) as (a2 & b2 & Y2 & ES & HY2).
  rewrite ES. rewrite nl_matrix_compute in HY2. change (rhs (compute_nl X0 s)) with (rhs s) in HY2. change (s_M (compute_nl X0 s)) with (s_M s) in HY2.
  assert (N1': nonsingular (s_M s) (nl_matrix s Y1)) by (eapply nonsingular_ext; [apply nl_matrix_ext, veq_sym, E1|exact N1]).
  apply nonlinear_solution_solves in S1.
  assert (E2: veq (s_M s) Y2 X1).
  { eapply solves_unique; [exact N1'|eapply solver_direct_correct; eassumption|].
    eapply solves_ext; [apply nl_matrix_ext, veq_sym, E1|apply veq_refl|exact S1]. }
  rewrite !compute_nl_twice. change (s_M (compute_nl Y1 s)) with (s_M s).
  assert (EC2: convergence (s_M s) Y2 Y1 = Fin 0).
  { apply convergence_same; [intros k Hk; rewrite (E2 k Hk), (E1 k Hk); reflexivity|]. rewrite (nrm_ext _ Y1 X1 E1). exact Hn. }
  rewrite EC2. cbn [xlt]. destruct (Rlt_dec 0 thr) as [_|HH]; [|exfalso; lra].
  do 5 eexists. split; [unfold conv_array; cbn [List.length List.app Nat.sub]; rewrite Nat.sub_0_r; reflexivity|]. split; assumption.
Qed.
(** 5 x 4 pixels with PML, uniform eps = 1 (density 0), chi = -2/3 everywhere, uniform source:
    the linear field is 1 and the nonlinear field is -1. *)
Definition ex_q : R := (ex_omega ^ 2 * EPSILON_0)%R.
Definition ex_J_nl (s0 : sim) : sim :=
  upd_rho (Val (fun _ => 0%R)) (upd_src (mkNd 5 4 (fun _ => (RtoC ex_q / (Ci * RtoC ex_omega))%C))
    (fst (add_nl (- (2 / 3)) (fun _ => 1%R) "kerr" false None s0))).
Lemma ex_J_nl_facts s0 : fam_sim "Ez" 5 4 1 1 (fun _ => 1%R) = Ok s0 -> let s := ex_J_nl s0 in
  s_pol s = PolEz /\ consistent s /\ s_M s = 20 /\ nd_size (s_src s) = 20 /\ s_omega s = ex_omega /\ s_L0 s = 1%R /\
  (forall F k, s_eps_nl (compute_nl F s) k = (- 2 * Cnorm2 (F k))%R) /\
  (forall F k, s_dnl_de (compute_nl F s) k = (RtoC (- 2) * Cconj (F k))%C) /\
  (forall k, nd_buf (s_eps s) k = 1%R) /\
  s_A s = fst (construct_A ex_omega (0, INR 5 * 1)%R (0, INR 4 * 1)%R 5 4 (cvec (fun _ => 1%R)) (1, 1) PolEz 1 true) /\
  (forall k, rhs s k = RtoC ex_q).
Proof.
  intros H0 s. assert (HC := Simulation_consistent _ _ _ _ _ _ _ H0).
  unfold fam_sim, Simulation in H0. destruct (check_inputs _ _ _ _); [|discriminate]. injection H0 as H0.
  assert (EN: exists m, s_nl s = [mkNonlin (- (2 / 3) / 1 ^ 2)%R (fun _ => 1%R) false m]).
  { unfold s, ex_J_nl. rewrite <- H0. eexists. reflexivity. }
  destruct EN as [m EN].
  assert (EE: forall k, nd_buf (s_eps s) k = 1%R) by (intro k; unfold s, ex_J_nl; rewrite <- H0; reflexivity).
  split; [unfold s, ex_J_nl; rewrite <- H0; reflexivity|]. split; [exact HC|].
  split; [unfold s, ex_J_nl; rewrite <- H0; reflexivity|]. split; [reflexivity|].
  split; [unfold s, ex_J_nl; rewrite <- H0; reflexivity|]. split; [unfold s, ex_J_nl; rewrite <- H0; reflexivity|].
  split; [|split; [|split; [exact EE|split]]].
  - intros F k. cbn [compute_nl upd_nlvals s_eps_nl]. rewrite sum_eps_nl_coef, EN. unfold kerr_coef, nl_scale. cbn [fold_right nl_chi nl_region nl_eps_scale]. field.
  - intros F k. cbn [compute_nl upd_nlvals s_dnl_de]. rewrite sum_dnl_de_coef, EN. unfold kerr_coef, nl_scale. cbn [fold_right nl_chi nl_region nl_eps_scale].
    f_equal. f_equal. field.
  - unfold s, ex_J_nl. rewrite <- H0. reflexivity.
  - intro k. unfold rhs. change (s_omega s) with (s_omega s0). rewrite <- H0. cbn [s ex_J_nl upd_rho upd_src s_src nd_buf set_eps s_omega].
    assert (P := Ci_neq0). assert (RtoC ex_omega <> RtoC 0) by (apply RtoC_neq0; assert (Q := ex_omega_pos); lra). field. auto.
Qed.
Lemma ex_q_mu : (MU_0 * 1 * (1 * 1) * ex_q = 16)%R.
Proof. unfold ex_q. rewrite <- ex_omega_sq. ring. Qed.
Lemma ex_mu_pos : (0 < MU_0 * 1 * (1 * 1))%R.
Proof. assert (P := MU_0_pos). lra. Qed.
(** ex_omega^2*EPSILON_0*(1 + D) + Q: injective when |1 + D| - |Q| is at least 1 *)
Lemma ex_J_wide s0 D Q : fam_sim "Ez" 5 4 1 1 (fun _ => 1%R) = Ok s0 -> (1 <= Rabs (1 + D) - Rabs Q)%R ->
  widely_injective 20 (mplus (s_A (ex_J_nl s0)) (mdiag (fun _ => RtoC (ex_q * D)))) (mdiag (fun _ => RtoC (ex_q * Q))).
Proof.
  intros H0 HD. destruct (ex_J_nl_facts s0 H0) as (_ & _ & _ & _ & _ & _ & _ & _ & _ & -> & _).
  assert (N5: (0 < INR 5 * 1)%R) by (simpl; lra). assert (N4: (0 < INR 4 * 1)%R) by (simpl; lra).
  apply (Ez_widely_pml ex_omega 1 5 4 (1, 1) (0, INR 5 * 1)%R (0, INR 4 * 1)%R (fun _ => 1%R) true 1 (fun _ => ex_q * D)%R (fun _ => RtoC (ex_q * Q)));
    try (cbn [fst snd]; (lra || lia || apply ex_omega_pos)).
  { apply dL_new; lia. }
  intros k z _ Hz. assert (Pz: (0 < Cmod z)%R) by (apply Cmod_gt_0; exact Hz).
  set (m := (MU_0 * 1 * (1 * 1))%R). assert (Hm := ex_mu_pos). fold m in Hm.
  assert (T: (Rabs (1 + D) * ex_q * Cmod z - Rabs Q * ex_q * Cmod z <=
    Cmod (RtoC (ex_omega ^ 2 * (EPSILON_0 * 1) * 1 + ex_q * D) * z + RtoC (ex_q * Q) * Cconj z)%C)%R).
  { assert (Pq: (0 <= ex_q)%R) by (assert (E := ex_q_mu); fold m in E; nra).
    replace (ex_omega ^ 2 * (EPSILON_0 * 1) * 1 + ex_q * D)%R with (ex_q * (1 + D))%R by (unfold ex_q; ring).
    set (u := (RtoC (ex_q * (1 + D)) * z)%C). set (v := (RtoC (ex_q * Q) * Cconj z)%C).
    assert (Hu: Cmod u = (Rabs (1 + D) * ex_q * Cmod z)%R) by (unfold u; rewrite Cmod_mult, Cmod_R, Rabs_mult, (Rabs_pos_eq ex_q) by exact Pq; ring).
    assert (Hv: Cmod v = (Rabs Q * ex_q * Cmod z)%R) by (unfold v; rewrite Cmod_mult, Cmod_conj, Cmod_R, Rabs_mult, (Rabs_pos_eq ex_q) by exact Pq; ring).
    rewrite <- Hu, <- Hv. assert (TT := Cmod_triangle (u + v)%C (- v)%C). rewrite Cmod_opp in TT. replace (u + v + - v)%C with u in TT by ring. lra. }
  assert (E := ex_q_mu). fold m in E.
  apply Rlt_le_trans with (m * (Rabs (1 + D) * ex_q * Cmod z - Rabs Q * ex_q * Cmod z))%R.
  - replace (m * (Rabs (1 + D) * ex_q * Cmod z - Rabs Q * ex_q * Cmod z))%R with ((m * ex_q) * ((Rabs (1 + D) - Rabs Q) * Cmod z))%R by ring.
    rewrite E. assert (1 * Cmod z <= (Rabs (1 + D) - Rabs Q) * Cmod z)%R by (apply Rmult_le_compat_r; lra). lra.
  - apply Rmult_le_compat_l; [lra|exact T].
Qed.
Lemma ex_J_apply s0 F c k : fam_sim "Ez" 5 4 1 1 (fun _ => 1%R) = Ok s0 -> k < 20 -> Cnorm2 (F k) = 1%R ->
  mv 20 (nl_matrix (ex_J_nl s0) F) (fun _ => c) k = (- (RtoC ex_q * c))%C.
Proof.
  intros H0 Hk HF. destruct (ex_J_nl_facts s0 H0) as (_ & _ & EM & _ & EO & EL & EE & _ & _ & EA & _).
  assert (HM := nl_matrix_mv (ex_J_nl s0) F (fun _ => c) k). rewrite EM in HM. rewrite (HM Hk). clear HM. rewrite EE, HF, EO, EL.
  change (csum 20 (fun c0 => s_A (ex_J_nl s0) k c0 * c)%C) with (mv (5 * 4) (s_A (ex_J_nl s0)) (fun _ => c) k). rewrite EA.
  assert (N5: (0 < INR 5 * 1)%R) by (simpl; lra). assert (N4: (0 < INR 4 * 1)%R) by (simpl; lra).
  rewrite (Ez_const ex_omega 1 5 4 (1,1) _ _ (cvec (fun _ => 1%R)) true 1 c k); [|lia|lia|apply dL_new; lia|lra|exact Hk].
  unfold cvec, ex_q. rewrite !RtoC_mult. replace (RtoC (-2)) with (RtoC (-1) + RtoC (-1))%C by (apply C_ext; simpl; lra).
  replace (RtoC (-1)) with (- RtoC 1)%C by (apply C_ext; simpl; lra). ring.
Qed.
Lemma ex_J_nonsingular s0 F : fam_sim "Ez" 5 4 1 1 (fun _ => 1%R) = Ok s0 -> (forall k, k < 20 -> Cnorm2 (F k) = 1%R) ->
  nonsingular 20 (nl_matrix (ex_J_nl s0) F).
Proof.
  intros H0 HF. destruct (ex_J_nl_facts s0 H0) as (_ & _ & EM & _ & EO & EL & EE & _ & _ & EA & _).
  apply injective_nonsingular. intros x Hx. assert (D1: (1 <= Rabs (1 + -2) - Rabs 0)%R).
  { rewrite Rabs_R0. replace (1 + -2)%R with (- (1))%R by ring. rewrite Rabs_Ropp, Rabs_R1. lra. }
  apply (ex_J_wide s0 (-2) 0 H0 D1). intros r Hr. refine (eq_trans _ (Hx r Hr)). unfold nl_matrix. rewrite EL, EO.
  rewrite (csum_0 _ (fun c => mdiag (fun _ => RtoC (ex_q * 0)) r c * Cconj (x c))%C).
  2: { intros; unfold mdiag; rewrite Rmult_0_r; destruct (Nat.eqb _ _); ring. }
  rewrite Cplus_0_r. unfold mv. apply csum_ext. intros c Hc. f_equal. unfold mplus, mdiag. f_equal.
  destruct (Nat.eqb r c); [|reflexivity]. rewrite EE, (HF r Hr). unfold ex_q. f_equal. ring.
Qed.
Lemma ex_J_lin s0 : fam_sim "Ez" 5 4 1 1 (fun _ => 1%R) = Ok s0 -> nonsingular 20 (s_A (ex_J_nl s0)) /\
  solves 20 (s_A (ex_J_nl s0)) (fun _ => RtoC 1) (rhs (ex_J_nl s0)).
Proof.
  intros H0. destruct (ex_J_nl_facts s0 H0) as (_ & _ & EM & _ & EO & EL & EE & _ & _ & EA & ER). split.
  - apply injective_nonsingular. intros x Hx. assert (D1: (1 <= Rabs (1 + 0) - Rabs 0)%R).
    { rewrite Rabs_R0, Rplus_0_r, Rabs_R1. lra. }
    apply (ex_J_wide s0 0 0 H0 D1). intros r Hr. refine (eq_trans _ (Hx r Hr)). rewrite Rmult_0_r.
    rewrite (csum_0 _ (fun c => mdiag (fun _ => RtoC 0) r c * Cconj (x c))%C).
    2: { intros; unfold mdiag; destruct (Nat.eqb _ _); ring. }
    rewrite Cplus_0_r. unfold mv. apply csum_ext. intros c Hc. f_equal. unfold mplus, mdiag. destruct (Nat.eqb r c); ring.
  - rewrite solves_mv. intros k Hk. rewrite EA, ER.
    assert (N5: (0 < INR 5 * 1)%R) by (simpl; lra). assert (N4: (0 < INR 4 * 1)%R) by (simpl; lra).
    change 20 with (5 * 4). rewrite (Ez_const ex_omega 1 5 4 (1,1) _ _ (cvec (fun _ => 1%R)) true 1 (RtoC 1) k); [|lia|lia|apply dL_new; lia|lra|exact Hk].
    unfold cvec, ex_q. rewrite !RtoC_mult. ring.
Qed.
Lemma ex_J_jac s0 F : fam_sim "Ez" 5 4 1 1 (fun _ => 1%R) = Ok s0 -> veq 20 F (fun _ => RtoC (-1)) ->
  widely_injective 20 (nl_jac11 (ex_J_nl s0) F) (nl_jac12 (ex_J_nl s0) F).
Proof.
  intros H0 HF x Hx. destruct (ex_J_nl_facts s0 H0) as (_ & _ & EM & _ & EO & EL & EE & ED & _ & EA & ER).
  assert (D1: (1 <= Rabs (1 + -4) - Rabs (-2))%R).
  { replace (1 + -4)%R with (- (3))%R by ring. replace (-2)%R with (- (2))%R by ring. rewrite !Rabs_Ropp, !Rabs_pos_eq by lra. lra. }
  apply (ex_J_wide s0 (-4) (-2) H0 D1). intros r Hr. refine (eq_trans _ (Hx r Hr)).
  change (csum 20 (fun c => nl_jac11 (ex_J_nl s0) F r c * x c)%C) with (mv 20 (nl_jac11 (ex_J_nl s0) F) x r).
  change (csum 20 (fun c => nl_jac12 (ex_J_nl s0) F r c * Cconj (x c))%C) with (mv 20 (nl_jac12 (ex_J_nl s0) F) (vconj x) r).
  assert (J1 := jac11_mv (ex_J_nl s0) F x r). assert (J2 := jac12_mv (ex_J_nl s0) F (vconj x) r). rewrite EM in J1, J2.
  rewrite (J1 Hr), (J2 Hr). clear J1 J2. rewrite EE, ED, EO, EL, (HF r Hr).
  change (csum 20 (fun c => mplus (s_A (ex_J_nl s0)) (mdiag (fun _ => RtoC (ex_q * -4))) r c * x c)%C)
    with (mv 20 (mplus (s_A (ex_J_nl s0)) (mdiag (fun _ => RtoC (ex_q * -4)))) x r).
  change (csum 20 (fun c => mdiag (fun _ => RtoC (ex_q * -2)) r c * Cconj (x c))%C) with (mv 20 (mdiag (fun _ => RtoC (ex_q * -2))) (vconj x) r).
  rewrite mv_mplus, !mv_diag by exact Hr. unfold mv. rewrite <- !Cplus_assoc. f_equal.
  unfold ex_q. set (w := (ex_omega ^ 2 * EPSILON_0)%R). apply C_ext; autorewrite with reim; unfold Cnorm2, vconj; autorewrite with reim; simpl; ring.
Qed.
Lemma ex_J_solve e s0 s : solver_exact e -> fam_sim "Ez" 5 4 1 1 (fun _ => 1%R) = Ok s0 -> s = ex_J_nl s0 ->
  exists s2 F, solve_fields_nl_default e (solved e s) = (s2, Ok F) /\
   exists En, s_fields_nl s2 Ez = Some En /\ veq 20 En (fun _ => RtoC (-1)) /\ nl_current s2 En /\ s_fields s2 = s_fields (solved e s) /\ s_eps_nl s2 9 = (-2)%R.
Proof.
  intros He H0 ->. destruct (ex_J_nl_facts s0 H0) as (EP & HC & EM & ES & EO & EL & EE & ED & Eeps & EA & ER).
  destruct (ex_J_lin s0 H0) as [NL SL]. set (s := ex_J_nl s0) in *.
  assert (EX: veq 20 (lin_solution e s) (fun _ => RtoC 1)).
  { eapply solves_unique; [exact NL| |exact SL]. rewrite <- EM. apply lin_solution_solves; [exact He|rewrite EM; exact NL]. }
  set (s1 := solved e s) in *.
  assert (EM1: s_M s1 = 20) by exact EM.
  assert (Emat: forall F, nl_matrix s1 F = nl_matrix s F) by reflexivity.
  assert (H1: forall k, k < 20 -> Cnorm2 (lin_solution e s k) = 1%R) by (intros k Hk; rewrite (EX k Hk); unfold Cnorm2; simpl; ring).
  assert (Hm1: forall k : nat, k < 20 -> Cnorm2 (RtoC (-1)) = 1%R) by (intros; unfold Cnorm2; simpl; ring).
  assert (Hq: forall k, k < 20 -> rhs s1 k = (- (RtoC ex_q * RtoC (-1)))%C).
  { intros k Hk. change (rhs s1 k) with (rhs s k). rewrite ER. replace (RtoC (-1)) with (- RtoC 1)%C by (apply C_ext; simpl; lra). ring. }
  assert (Hnrm: forall v c, veq 20 v (fun _ => RtoC c) -> nrm 20 v = sqrt (20 * (c * c))).
  { intros v c Hv. unfold nrm. f_equal. rewrite (rsum_ext 20 _ (fun _ => c * c)%R); [cbn [rsum]; ring|]. intros k Hk. rewrite (Hv k Hk). unfold Cnorm2. simpl. ring. }
  destruct (born_two e s1 (lin_solution e s) (fun _ => RtoC (-1)) (1 / 10 ^ 10) 18 He) as (Fx & Fy & Fz & Fp & c & HB & HFz & HFp).
  - rewrite EM1. exact ES.
  - change (s_pol s1) with (s_pol s). unfold s1, solved. cbn [upd_fields s_fields]. rewrite EP. reflexivity.
  - rewrite EM1, Emat. apply ex_J_nonsingular; assumption.
  - rewrite EM1, Emat, solves_mv. intros k Hk. refine (eq_trans (ex_J_apply s0 (lin_solution e s) (RtoC (-1)) k H0 Hk (H1 k Hk)) _). symmetry. apply Hq, Hk.
  - rewrite EM1, Emat. apply ex_J_nonsingular; assumption.
  - apply nonlinear_solution_solves. rewrite EM1, Emat, solves_mv. intros k Hk.
    refine (eq_trans (ex_J_apply s0 (fun _ => RtoC (-1)) (RtoC (-1)) k H0 Hk (Hm1 k Hk)) _). symmetry. apply Hq, Hk.
  - rewrite EM1, (Hnrm _ (-1)%R) by (intros k _; reflexivity). apply Rgt_not_eq, sqrt_lt_R0. lra.
  - rewrite EM1, (Hnrm (fun _ => RtoC (-1)) (-1)%R) by (intros k _; reflexivity).
    rewrite (Hnrm (vminus (fun _ => RtoC (-1)) (lin_solution e s)) (-2)%R).
    2: { intros k Hk. unfold vminus. rewrite (EX k Hk). apply C_ext; simpl; lra. }
    assert (P10: (1 <= 10 ^ 10)%R) by (apply pow_R1_Rle; lra). split; [apply Rdiv_lt_0_compat; lra|].
    apply Rle_trans with 1%R; [apply Rdiv_le_1; lra|].
    assert (Q: (0 < sqrt (20 * (-1 * -1)))%R) by (apply sqrt_lt_R0; lra).
    apply (Rmult_le_reg_r (sqrt (20 * (-1 * -1)))); [exact Q|]. unfold Rdiv. rewrite Rmult_assoc, Rinv_l by lra. rewrite Rmult_1_l, Rmult_1_r.
    apply sqrt_le_1; lra.
  - rewrite EM1 in HFz, HFp. unfold solve_fields_nl_default, solve_fields_nl, run_solver_nl.
    change (String.eqb "hybrid" "born") with false. change (String.eqb "hybrid" "newton") with false. change (String.eqb "hybrid" "LM") with false.
    change (String.eqb "hybrid" "krylov") with false. change (String.eqb "hybrid" "hybrid") with true. cbv iota beta.
    rewrite HB. unfold last_conv.
    assert (EL1: rev ([c; Fin 0] ++ repeat (Fin 0) 18) = Fin 0 :: rev ([c; Fin 0] ++ repeat (Fin 0) 17)) by reflexivity. rewrite EL1. cbn [xgt].
    assert (P10: (0 < 1 / 10 ^ 10)%R) by (apply Rdiv_lt_0_compat; [lra|apply pow_lt; lra]).
    destruct (Rlt_dec (1 / 10 ^ 10) 0) as [HH|_]; [lra|]. 
    do 2 eexists. split; [reflexivity|]. exists Fz. cbn [compute_nl upd_nlvals s_pol]. change (s_pol s1) with (s_pol s). rewrite EP.
    split; [reflexivity|]. split; [exact HFz|]. split; [|split; [reflexivity|]].
    2: { change (s_eps_nl (compute_nl Fp s) 9 = (-2)%R). rewrite EE, (HFp 9) by lia. unfold Cnorm2. simpl. ring. }
    assert (HN := nl_current_of_rest s1 Fz Fp). rewrite EM1 in HN. apply HN. intros k Hk. rewrite (HFz k Hk), (HFp k Hk). reflexivity.
Qed.
Example C37_met :
  exists s0 args ob o st1 J0 En, fam_sim "Ez" 5 4 1 1 (fun _ => 1%R) = Ok s0 /\
  Forall2 (fun c a => new_obj_arg (fst c) (snd c) = Ok a) [("Ez", true); ("Ez", false)]%string args /\
  Objective (intensity 20 2) args = Ok ob /\
  Optimization ob s0 ex_design 5 None (1 / 2) 10 "linear" "hybrid" None = Ok o /\
  let s := ex_J_nl s0 in
  s_pol s = PolEz /\ consistent s /\ nonsingular (s_M s) (s_A s) /\
  s_rho s = Val (fun _ => 0%R) /\ in_step o s (fun _ => 0%R) /\ o_objective o = ob /\ o_W o = rId /\ o_current o = false /\
  (0 < o_beta o)%R /\ (0 <= o_eta o <= 1)%R /\
  compute_J ex_env (o, s) = (st1, Ok J0) /\ s_fields_nl (snd st1) Ez = Some En /\
  nonlinear_solution s En /\ nl_current (snd st1) En /\ widely_injective (s_M s) (nl_jac11 s En) (nl_jac12 s En) /\
  is_gradient (s_M s) (pf_val (intensity 20 2)) (stored_args (fst st1)) (fun i => pf_grad (intensity 20 2) i (stored_args (fst st1))) /\
  9 < s_M s /\ o_design o 9 = 1%R /\ o_design o 8 = 0%R /\ s_eps_nl (snd st1) 9 <> 0%R.
Proof.
  destruct (fam_sim_ok "Ez" 5 4 1 1 (fun _ => 1%R) (or_introl eq_refl)) as [s0 H0].
  destruct (ex_J_nl_facts s0 H0) as (EP & HC & EM & ES & EO & EL & EE & ED & Eeps & EA & ER).
  destruct (ex_J_lin s0 H0) as [NL SL].
  destruct (ex_J_solve ex_env s0 (ex_J_nl s0) ex_env_exact H0 eq_refl) as (s2 & F & HS & En & HE1 & HE2 & HE3 & HE4 & HE5).
  set (o := mkOpt (set_J (intensity 20 2) [mkArg Ez true grad_kerr_Ez; mkArg Ez false grad_linear_Ez])
     ex_design rId (1 / 2) 10 5 "linear" "hybrid" None [] [] false None).
  assert (HL: s_fields s2 Ez = Some (lin_solution ex_env (ex_J_nl s0))) by (rewrite HE4; unfold solved; rewrite EP; reflexivity).
  set (l := [En; lin_solution ex_env (ex_J_nl s0)]).
  exists s0. do 2 eexists. exists o, (upd_arglist l o, s2), (pf_val (intensity 20 2) l), En.
  split; [exact H0|]. split; [repeat constructor|]. split; [reflexivity|]. split; [reflexivity|]. cbv zeta.
  split; [exact EP|]. split; [exact HC|]. split; [rewrite EM; exact NL|]. split; [reflexivity|].
  split. { intros k Hk. rewrite Eeps. symmetry. apply (C25_permittivity_in_range (s_M (ex_J_nl s0)) (fun _ => 0%R) 5 (1 / 2) 10); try lra; try reflexivity; exact Hk. }
  split; [reflexivity|]. split; [reflexivity|]. split; [reflexivity|]. split; [cbn; lra|]. split; [cbn; lra|].
  split.
  { unfold compute_J, bind, solve_arg_fields, needs_solve. cbn [o o_current negb]. 
    assert (Hs: nd_size (s_src (ex_J_nl s0)) = s_M (ex_J_nl s0)) by (rewrite EM; exact ES).
    destruct (solve_fields_lin ex_env false (ex_J_nl s0) Hs) as [X [HX HE]]. cbv zeta in HE. rewrite HE.
    assert (HXs: lin_solution ex_env (ex_J_nl s0) = X) by (unfold lin_solution; rewrite HX; reflexivity). rewrite <- HXs.
    change (upd_fields _ (ex_J_nl s0)) with (solved ex_env (ex_J_nl s0)).
    change (is_linear (o_objective o)) with false. cbv iota. rewrite HS.
    assert (HA: arg_fields s2 (ob_args (o_objective o)) = Ok l).
    { cbn [o o_objective set_J ob_args arg_fields oa_nl oa_comp]. rewrite HE1, HL. reflexivity. }
    rewrite HA. reflexivity. }
  cbn [fst snd].
  split; [exact HE1|]. split.
  { apply nonlinear_solution_solves. rewrite EM, solves_mv. intros k Hk.
    assert (Hn: Cnorm2 (En k) = 1%R) by (rewrite (HE2 k Hk); unfold Cnorm2; simpl; ring).
    transitivity (mv 20 (nl_matrix (ex_J_nl s0) En) (fun _ => RtoC (-1)) k).
    - unfold mv. apply csum_ext. intros j Hj. rewrite (HE2 j Hj). reflexivity.
    - rewrite (ex_J_apply s0 En (RtoC (-1)) k H0 Hk Hn), ER. replace (RtoC (-1)) with (- RtoC 1)%C by (apply C_ext; simpl; lra). ring. }
  split; [exact HE3|]. split; [rewrite EM; apply ex_J_jac; assumption|]. split; [rewrite EM; apply intensity_gradient|].
  split; [rewrite EM; lia|]. split; [reflexivity|]. split; [reflexivity|]. rewrite HE5. lra.
Qed.
