(** C93 for nonlinear objectives: the optimizers keep the symmetry of a Kerr device. *)
From Coq Require Import Reals Lra Lia List ZArith Arith Bool String FunctionalExtensionality.
From Coquelicot Require Import Coquelicot.
From Verif Require Import Base Linear MCore MSim Spec PCore PSim PEx PropsCore PropsSolve PropsNl PropsIter MFilter PFilter PropsFilter MOpt PDiff PGrad PExOpt PropsGrad PropsGradNl PropsGradTab POpt PropsOpt PropsOpt2 PSym PropsSym PropsUnit PropsLin PropsPower PSymNl PropsSymNl PropsAscent MPlot PropsShots PropsSymOpt.
Import ListNotations.
Local Open Scope nat_scope.

(** ** The specification *)

(** the arguments Ez and nonlinear Ez of an objective *)
Definition Ez_kerr : obj_arg := mkArg Ez true grad_kerr_Ez.
(** the Kerr media are symmetric *)
Definition symmetric_media (f : nat -> nat) (s : sim) : Prop :=
  forall q, In q (s_nl s) -> invariant (s_M s) f (nl_region q).
(** the system of the nonlinear adjoint has exactly one solution *)
Definition adjoint_regular (s : sim) : Prop :=
  forall E An, s_fields_nl s Ez = Some E -> s_Anl s = Some (s_M s, An) ->
  nonsingular (2 * s_M s) (kerr_Cfull (s_M s) (kerr_C11 s An E) (kerr_C12 s E)).
(** an optimizer step computes the fields twice, for the value and for the gradient; the systems it
    meets have exactly one solution *)
Definition regular_step (e : env) (o : opt) (s : sim) : Prop :=
  regular s /\
  forall o1 s1 o2 s2, solve_arg_fields e (upd_current false o, s) = ((o1, s1), Ok tt) ->
    solve_arg_fields e (upd_current false o1, s1) = ((o2, s2), Ok tt) -> adjoint_regular s2.

(** ** Proofs *)
Section Adjoint.
Context (n : nat) (f g : nat -> nat) (HR : renumber n n f g).
Definition any (_ _ : vec * vec) : Prop := True.
Definition f2 (k : nat) : nat := if Nat.ltb k n then f k else n + f (k - n).
Definition g2 (k : nat) : nat := if Nat.ltb k n then g k else n + g (k - n).
Lemma renumber2 : renumber (2 * n) (2 * n) f2 g2.
Proof.
  destruct HR as [H1 H2]. split; intros k Hk; unfold f2, g2.
  - destruct (Nat.ltb_spec k n) as [L|L].
    + destruct (H1 k L) as [A B]. destruct (Nat.ltb_spec (f k) n); [|lia]. split; [lia|exact B].
    + destruct (H1 (k - n)) as [A B]; [lia|]. destruct (Nat.ltb_spec (n + f (k - n)) n); [lia|].
      split; [lia|]. replace (n + f (k - n) - n) with (f (k - n)) by lia. rewrite B. lia.
  - destruct (Nat.ltb_spec k n) as [L|L].
    + destruct (H2 k L) as [A B]. destruct (Nat.ltb_spec (g k) n); [|lia]. split; [lia|exact B].
    + destruct (H2 (k - n)) as [A B]; [lia|]. destruct (Nat.ltb_spec (n + g (k - n)) n); [lia|].
      split; [lia|]. replace (n + g (k - n) - n) with (g (k - n)) by lia. rewrite B. lia.
Qed.
Definition entries (A : mat) : Prop := forall i j, i < n -> j < n -> A (f i) (f j) = A i j.
Lemma entries_plus A B : entries A -> entries B -> entries (mplus A B).
Proof. intros HA HB i j Hi Hj. unfold mplus. rewrite HA, HB by assumption. reflexivity. Qed.
Lemma entries_diag d : invariant n f d -> entries (spdiags d).
Proof.
  intros Hd i j Hi Hj. unfold spdiags, mdiag. rewrite (Hd i Hi).
  replace (Nat.eqb (f i) (f j)) with (Nat.eqb i j); [reflexivity|].
  destruct (Nat.eqb_spec i j) as [->|Hne]; [rewrite Nat.eqb_refl; reflexivity|]. symmetry. apply Nat.eqb_neq. intro E. apply Hne.
  destruct HR as [H1 _]. rewrite <- (proj2 (H1 i Hi)), E. apply H1, Hj.
Qed.
Lemma entries_full A B : entries A -> entries B -> moved (2 * n) (2 * n) f2 g2 (kerr_Cfull n A B) (kerr_Cfull n A B).
Proof.
  intros HA HB. apply entries_moved; [exact renumber2|]. intros i j Hi Hj. unfold kerr_Cfull, block2, f2.
  assert (HF: forall k, k < n -> Nat.ltb (f k) n = true) by (intros k Hk; apply Nat.ltb_lt, HR, Hk).
  assert (HG: forall k, Nat.ltb (n + k) n = false) by (intros k; apply Nat.ltb_ge; lia).
  destruct (Nat.ltb_spec i n) as [Li|Li]; destruct (Nat.ltb_spec j n) as [Lj|Lj]; rewrite ?HF, ?HG by lia; unfold mconj;
    repeat match goal with |- context[n + ?a - n] => replace (n + a - n) with a by lia end; rewrite ?HA, ?HB by lia; reflexivity.
Qed.
Lemma stack_inv b : invariant n f b -> invariant (2 * n) f2 (stack_conj n b).
Proof.
  intros Hb k Hk. unfold stack_conj, f2. destruct (Nat.ltb_spec k n) as [L|L].
  - rewrite (proj2 (Nat.ltb_lt (f k) n)) by apply HR, L. apply Hb, L.
  - rewrite (proj2 (Nat.ltb_ge (n + f (k - n)) n)) by lia. replace (n + f (k - n) - n) with (f (k - n)) by lia. rewrite Hb by lia. reflexivity.
Qed.
Lemma adjoint_sym e s E b aj : solver_exact e -> mov_rel n n f g any s s -> s_fields_nl s Ez = Some E -> invariant n f E ->
  nlv n f s s -> adjoint_regular s -> invariant n f b -> adjoint_kerr_Ez e s b = Ok aj -> invariant n f aj.
Proof.
  intros He U HE IE (F & F' & HF & N & N') HA Hb H. assert (EM := m_M1 _ _ _ _ _ _ _ U).
  unfold adjoint_kerr_Ez in H. destruct (s_Anl s) as [[m An]|] eqn:QA; [|discriminate].
  destruct (Nat.eqb_spec m (s_M s)) as [->|]; [|discriminate]. cbn [negb] in H. rewrite HE in H.
  specialize (HA E An HE QA). rewrite EM in *.
  assert (EA: An = spdiags (fun k => RtoC (s_omega s ^ 2 * EPSILON_0 * s_L0 s * s_eps_nl (compute_nl F s) k))).
  { destruct N as (_ & _ & N3). rewrite QA in N3. cbn [compute_nl upd_nlvals s_Anl] in N3. injection N3 as _ ->. reflexivity. }
  assert (IF: invariant n f (s_eps_nl (compute_nl F s))).
  { intros k Hk. destruct N as (N1 & _). destruct N' as (N1' & _). transitivity (s_eps_nl (compute_nl F' s) (f k)); [rewrite <- N1, <- N1'; reflexivity|].
    apply (mv_eps_nl n n f g any s s F F' k U HF Hk). }
  assert (ID: invariant n f (s_dnl_de s)).
  { intros k Hk. destruct N as (_ & N1 & _). destruct N' as (_ & N1' & _). transitivity (s_dnl_de (compute_nl F' s) (f k)); [rewrite <- N1'; reflexivity|].
    rewrite N1. apply (mv_dnl_de n n f g any s s F F' k U HF Hk). }
  assert (IA: entries (s_A s)) by (intros i j Hi Hj; apply (moved_entries n f g (s_A s) (s_A s) HR (m_A _ _ _ _ _ _ _ U)); assumption).
  assert (I11: entries (kerr_C11 s An E)).
  { unfold kerr_C11. rewrite EA. repeat apply entries_plus; try exact IA; apply entries_diag; intros k Hk.
    - rewrite (IF k Hk). reflexivity.
    - unfold kerr_dAde. rewrite (ID k Hk), (IE k Hk). reflexivity. }
  assert (I12: entries (kerr_C12 s E)).
  { unfold kerr_C12. apply entries_diag. intros k Hk. unfold kerr_dAde. rewrite (ID k Hk), (IE k Hk). reflexivity. }
  assert (IZ: invariant (2 * n) f2 aj).
  { refine (sym_solver (2 * n) f2 g2 renumber2 e _ _ aj He _ _ (stack_inv b Hb) H); [apply nonsingular_mT; exact HA|].
    apply moved_T; [exact renumber2|]. apply entries_full; assumption. }
  intros k Hk. specialize (IZ k ltac:(lia)). unfold f2 in IZ. rewrite (proj2 (Nat.ltb_lt k n) Hk) in IZ. exact IZ.
Qed.
End Adjoint.

Section Loop.
Context (f g : nat -> nat).
(** the state in which the gradients of the arguments are computed *)
Record kerr_good (nl : bool) (n : nat) (rho : rvec) (s : sim) : Prop := {
  kg_rel : mov_rel n n f g any s s;
  kg_pol : s_pol s = PolEz;
  kg_dc : forall k, k < n -> kerr_dcoef (s_nl s) (f k) = kerr_dcoef (s_nl s) k;
  kg_rho : s_rho s = Val rho;
  kg_X : exists X, s_fields s Ez = Some X /\ invariant n f X;
  kg_A : nonsingular n (s_A s);
  kg_jac : forall E, widely_injective n (nl_jac11 s E) (nl_jac12 s E);
  kg_nl : nl = true -> exists E, s_fields_nl s Ez = Some E /\ invariant n f E /\ nlv n f s s /\ adjoint_regular s }.
Lemma kerr_good_compute nl n rho s E : kerr_good nl n rho s -> s_fields_nl s Ez = Some E -> invariant n f E -> kerr_good nl n rho (compute_nl E s).
Proof.
  intros G HE IE. destruct G as [H1 H2 H0 H3 H4 H5 H6 H7]. assert (EM := m_M1 _ _ _ _ _ _ _ H1). constructor; try assumption.
  - apply mv_compute_nl. exact H1.
  - intros _. exists E. split; [exact HE|]. split; [exact IE|]. split.
    + exists E, E. split; [exact IE|]. split; (split; [|split]); reflexivity.
    + intros E' An HE' HA. change (s_fields_nl (compute_nl E s) Ez) with (s_fields_nl s Ez) in HE'. rewrite HE in HE'. injection HE' as <-.
      assert (HC: nl_current (compute_nl E s) E) by (split; [eexists; split; [reflexivity|apply meq_refl]|intros k _; reflexivity]).
      destruct (kerr_blocks (compute_nl E s) E An HC HA) as [B1 B2]. apply Cfull_nonsingular.
      destruct (nl_jac_L (compute_nl E s) E H2) as [J1 J2].
      eapply widely_injective_ext; [apply meq_sym, B1|apply meq_sym, B2|].
      eapply widely_injective_ext; [exact J1|exact J2|]. change (s_M (compute_nl E s)) with (s_M s). rewrite EM. exact (H6 E).
Qed.
Lemma loop_kerr e o n rho J : solver_exact e -> renumber n n f g -> symmetric_settings n f o -> symmetric_objective n f J ->
  invariant n f rho -> (forall F, In F (stored_args o) -> invariant n f F) ->
  forall l i acc s s' gr nl, kerr_good nl n rho s -> (forall a, In a l -> a = Ez_lin \/ (a = Ez_kerr /\ nl = true)) -> invariant n f acc ->
  grad_loop e o (List.combine (List.combine (List.map oa_gradient l) (List.map (fun i => pf_dcall J i) (List.seq i (List.length l)))) l) acc s = (s', Ok gr) ->
  invariant n f gr.
Proof.
  intros He HR [HD HW] HJ Ir HF. induction l as [|a l IH]; intros i acc s s' gr nl G Hl Hacc H.
  - cbn in H. injection H as <- <-. exact Hacc.
  - cbn [List.map List.length List.seq List.combine grad_loop] in H. assert (Ha := Hl a (or_introl eq_refl)).
    assert (EM := m_M1 _ _ _ _ _ _ _ (kg_rel _ _ _ _ G)). assert (Hr := kg_rho _ _ _ _ G).
    destruct (kg_X _ _ _ _ G) as (X & HX & IX). rewrite (kg_pol _ _ _ _ G) in H. cbn [pol_comp] in H.
    destruct Ha as [-> | [-> Hnl]].
    + cbn [Ez_lin oa_gradient oa_nl run_grad] in H. rewrite HX in H.
      unfold g_linear_Ez, pf_dcall at 1 in H. destruct (Nat.eqb _ (pf_arity J)); [|discriminate]. cbn [rbind] in H. unfold finish_linear_Ez in H.
      destruct (adjoint_linear_Ez e s _) as [aj|x] eqn:EA; [|discriminate]. unfold get_rho in H. rewrite Hr in H. cbn [rbind] in H.
      unfold adjoint_linear_Ez in EA. rewrite EM in EA, H.
      assert (IA: invariant n f aj).
      { apply (sym_solver n f g HR e (mT (s_A s)) (vneg (pf_grad J i (stored_args o))) aj He); [apply nonsingular_mT, (kg_A _ _ _ _ G)|apply moved_T; [exact HR|apply (m_A _ _ _ _ _ _ _ (kg_rel _ _ _ _ G))]| |exact EA].
        intros k Hk. unfold vneg. rewrite (HJ _ HF i k Hk). reflexivity. }
      apply (IH _ _ _ _ _ nl) in H; [exact H|exact G|intros b Hb; apply Hl; right; exact Hb|].
      intros k Hk. cbv beta. rewrite (Hacc k Hk). f_equal. f_equal.
      apply (sym_sensitivity n f g HR o rho X (dAdeps_lin o s) aj HW Ir IX); [|exact IA|exact Hk].
      intros j Hj. unfold dAdeps_lin. rewrite (HD j Hj). reflexivity.
    + destruct (kg_nl _ _ _ _ G Hnl) as (E & HE & IE & NV & HA).
      cbn [Ez_kerr oa_gradient oa_nl run_grad] in H. rewrite HE in H. unfold g_kerr_Ez, pf_dcall at 1 in H.
      destruct (Nat.eqb _ (pf_arity J)); [|discriminate].
      destruct (adjoint_kerr_Ez e s _) as [aj|x] eqn:EA; [|discriminate].
      assert (IA: invariant n f aj).
      { refine (adjoint_sym n f g HR e s E _ aj He (kg_rel _ _ _ _ G) HE IE NV HA _ EA).
        intros k Hk. unfold vneg. rewrite (HJ _ HF i k Hk). reflexivity. }
      change (get_rho (compute_nl E s)) with (get_rho s) in H. unfold get_rho in H. rewrite Hr in H. cbn [rbind] in H.
      change (s_M (compute_nl E s)) with (s_M s) in H. rewrite EM in H.
      apply (IH _ _ _ _ _ nl) in H; [exact H|apply kerr_good_compute; assumption|intros b Hb; apply Hl; right; exact Hb|].
      intros k Hk. cbv beta. rewrite (Hacc k Hk). f_equal. f_equal.
      apply (sym_sensitivity n f g HR o rho E (dAdeps_kerr o (compute_nl E s)) aj HW Ir IE); [|exact IA|exact Hk].
      intros j Hj. unfold dAdeps_kerr, dAdeps_lin. rewrite (HD j Hj). do 2 f_equal. cbn [compute_nl upd_nlvals s_dnl_deps].
      rewrite !sum_dnl_deps_coef, (kg_dc _ _ _ _ G j Hj), (IE j Hj). reflexivity.
Qed.

Lemma media_kerr_coef s k x : symmetric_media f s -> k < s_M s -> kerr_coef (s_nl s) (f k) x = kerr_coef (s_nl s) k x /\ kerr_dcoef (s_nl s) (f k) = kerr_dcoef (s_nl s) k.
Proof.
  unfold symmetric_media, kerr_coef, kerr_dcoef. intros H Hk. generalize dependent (s_nl s). intro l. induction l as [|q l IH]; intro H; cbn [fold_right]; [auto|].
  destruct IH as [I1 I2]; [intros q' Hq; apply H; right; exact Hq|]. rewrite I1, I2, (H q (or_introl eq_refl) k Hk). auto.
Qed.
Lemma mov_self s : renumber (s_M s) (s_M s) f g -> moved (s_M s) (s_M s) f g (s_A s) (s_A s) -> nd_size (s_src s) = s_M s ->
  invariant (s_M s) f (nd_buf (s_src s)) -> invariant (s_M s) f (nd_buf (s_eps s)) -> symmetric_media f s -> mov_rel (s_M s) (s_M s) f g any s s.
Proof.
  intros HR HA Hs I1 I2 HM. constructor; try reflexivity; try assumption.
  - intros k x Hk. apply media_kerr_coef; assumption.
Qed.
(** the fields of the arguments *)
Lemma args_sym e J args o s o1 s1 rho : solver_exact e -> real_solver_exact e -> s_pol s = PolEz ->
  renumber (s_M s) (s_M s) f g -> moved (s_M s) (s_M s) f g (s_A s) (s_A s) -> nd_size (s_src s) = s_M s ->
  invariant (s_M s) f (nd_buf (s_src s)) -> invariant (s_M s) f (nd_buf (s_eps s)) -> symmetric_media f s -> regular s ->
  s_rho s = Val rho -> o_objective o = set_J J args -> (forall a, In a args -> a = Ez_lin \/ a = Ez_kerr) -> o_current o = false ->
  solve_arg_fields e (o, s) = ((o1, s1), Ok tt) -> (existsb oa_nl args = true -> adjoint_regular s1) ->
  kerr_good (existsb oa_nl args) (s_M s) rho s1 /\ forall F, In F (stored_args o1) -> invariant (s_M s) f F.
Proof.
  intros He Hre Hp HR HA Hs I1 I2 HM (RG1 & RG2 & RG3) Hr Ho Ha Hc H HAR.
  unfold solve_arg_fields, needs_solve in H. rewrite Hc in H. cbn [negb] in H.
  destruct (solve_fields_lin e false s Hs) as [X [HX HE]]. cbv zeta in HE. rewrite HE in H.
  set (sl := upd_fields _ s) in H.
  assert (Hsl: s_fields sl Ez = Some X) by (unfold sl; cbn [upd_fields s_fields]; rewrite Hp; reflexivity).
  assert (IX: invariant (s_M s) f X).
  { apply (sym_solver (s_M s) f g HR e (s_A s) (rhs s) X He RG1 HA); [|exact HX]. intros k Hk. unfold rhs. rewrite (I1 k Hk). reflexivity. }
  assert (U: mov_rel (s_M s) (s_M s) f g any sl sl) by exact (mv_upd_fields _ _ _ _ _ s s _ _ (mov_self s HR HA Hs I1 I2 HM)).
  assert (AF: forall t l, (forall F, s_fields t Ez = Some F -> invariant (s_M s) f F) ->
    (existsb oa_nl args = true -> forall F, s_fields_nl t Ez = Some F -> invariant (s_M s) f F) ->
    forall as', (forall a, In a as' -> In a args) -> arg_fields t as' = Ok l -> forall F, In F l -> invariant (s_M s) f F).
  { intros t l T1 T2 as'. revert l. induction as' as [|a as' IH]; intros l Hi Hl F HF; cbn [arg_fields] in Hl; [injection Hl as <-; destruct HF|].
    assert (Hia := Hi a (or_introl eq_refl)). destruct (if oa_nl a then _ else _) as [F0|] eqn:Q; [|discriminate].
    destruct (arg_fields t as') as [l'|]; [|discriminate]. injection Hl as <-.
    destruct HF as [<-|HF]; [|eapply IH; [intros b Hb; apply Hi; right; exact Hb|reflexivity|exact HF]].
    destruct (Ha a Hia) as [-> | ->]; cbn [Ez_lin Ez_kerr oa_nl oa_comp] in Q; [exact (T1 _ Q)|].
    apply T2; [|exact Q]. apply existsb_exists. exists Ez_kerr. auto. }
  unfold is_linear in H. rewrite Ho in H. cbn [set_J ob_args] in H.
  destruct (forallb (fun a => negb (oa_nl a)) args) eqn:EL.
  - assert (EX: existsb oa_nl args = false).
    { destruct (existsb oa_nl args) eqn:Q; [|reflexivity]. apply existsb_exists in Q as (a & Hi & Hn). rewrite forallb_forall in EL. specialize (EL a Hi). rewrite Hn in EL. discriminate. }
    rewrite EX in *. destruct (arg_fields sl args) as [l|] eqn:EA; [|discriminate]. injection H as <- <-. split.
    + constructor; try assumption; try discriminate.
      * intros k Hk. apply (media_kerr_coef s k 0%R); assumption.
      * exists X. auto.
      * intro E. apply RG3. exact Hp.
    + eapply (AF sl l); [|discriminate|intros a Hi; exact Hi|exact EA]. rewrite Hsl. intros F Q. injection Q as <-. exact IX.
  - destruct (solve_fields_nl_default e sl) as [s2 [F|x]] eqn:EN; [|discriminate].
    destruct (arg_fields s2 args) as [l|] eqn:EA; [|discriminate]. injection H as <- <-.
    assert (G: mgood (s_M s) (s_M s) f g any sl sl).
    { constructor; [exact U| |exact RG1|exact RG2|exact RG3]. change (s_pol sl) with (s_pol s). rewrite Hp. cbn [pol_comp]. rewrite Hsl. exact IX. }
    destruct F as [F conv]. assert (EN' := EN). unfold solve_fields_nl_default in EN'.
    destruct (mv_solve_fields_nl (s_M s) (s_M s) f g any HR e He Hre sl sl None None "hybrid" _ _ false s2 F conv G I ltac:(auto) EN')
      as (s3 & F3 & EN3 & T & G2 & NV). rewrite EN' in EN3. injection EN3 as <- <-.
    assert (EF: s_fields_nl s2 Ez = Some (snd F) /\ s_pol s2 = PolEz /\ s_rho s2 = Val rho /\ s_nl s2 = s_nl s /\ s_fields s2 Ez = Some X).
    { assert (ST := EN'). apply solve_nl_step_strict in ST; [|left; discriminate]. destruct ST as [S1 S2].
      destruct S1 as (_ & _ & _ & Ep & _ & _ & _ & _ & _ & _ & _ & _ & _ & _ & En & Er & _). cbn [sl upd_fields s_pol s_rho s_nl] in Ep, En, Er.
      rewrite Hp in Ep. split; [|split; [exact Ep|split; [congruence|split; [assumption|]]]].
      - unfold solve_fields_nl in EN'. destruct (run_solver_nl _ _ _ _ _ _ _) as [s4 [[F4 c4]|]]; [|discriminate]. injection EN' as <- <- <-.
        cbn [upd_fields_nl s_fields_nl s_pol] in *. rewrite Ep. destruct F4 as [[? ?] ?]. reflexivity.
      - destruct S2 as [-> | [E2 _]]; [exact Hsl|]. exfalso. cbn [sl upd_fields s_pol] in E2. rewrite Hp in E2. cbn [pol_comp] in E2.
        change (s_fields sl Ez = None) in E2. rewrite Hsl in E2. discriminate. }
    destruct EF as (EF & Ep & Er & En & EX). split.
    + constructor.
      * apply G2.
      * exact Ep.
      * intros k Hk. rewrite En. apply (media_kerr_coef s k 0%R); assumption.
      * exact Er.
      * exists X. auto.
      * apply G2.
      * apply (mg_jac _ _ _ _ _ _ _ G2). exact Ep.
      * intro Q. exists (snd F). split; [exact EF|]. split; [apply T|]. split; [exact NV|]. apply HAR. exact Q.
    + eapply (AF s2 l); [| |intros a Hi; exact Hi|exact EA].
      * rewrite EX. intros F0 Q. injection Q as <-. exact IX.
      * intros _. rewrite EF. intros F0 Q. injection Q as <-. apply T.
Qed.
End Loop.

(** what stays true along a run *)
Definition kerr_ready (J : pyfun) (args : list obj_arg) (o : opt) (s : sim) : Prop :=
  s_pol s = PolEz /\ nd_size (s_src s) = s_M s /\ (exists rho, s_rho s = Val rho) /\ o_objective o = set_J J args /\
  List.length args = pf_arity J /\ o_max_shift o = None.
Lemma kerr_ready_frame J args o s o' s' : cfg o o' -> same_tidy s s' -> kerr_ready J args o s -> kerr_ready J args o' s'.
Proof.
  intros (C1 & _ & _ & _ & _ & _ & _ & _ & C9) [HS _] (H1 & H2 & H3 & H4 & H6 & H7).
  destruct (same_rhs _ _ HS) as (_ & EM & ES & EP). destruct HS as (_ & _ & _ & _ & _ & _ & _ & E8 & _ & _ & _ & _ & _ & _ & _ & E16 & _).
  unfold kerr_ready. rewrite C1, C9, EM, EP, E8, E16. auto 10.
Qed.
Definition kerr_inv (J : pyfun) (args : list obj_arg) (f g : nat -> nat) (o : opt) (s : sim) : Prop :=
  kerr_ready J args o s /\ o_current o = false /\ consistent s /\ grid_symmetry s f g /\
  symmetric_settings (s_M s) f o /\ symmetric_state f s /\ symmetric_media f s.
Lemma symmetric_media_same s s' f : same_problem s s' -> symmetric_media f s -> symmetric_media f s'.
Proof.
  unfold same_problem, symmetric_media, s_M. intros (E1 & E2 & E3 & E4 & E5 & E6 & E7 & E8 & E9 & E10 & E11 & E12 & E13 & E14 & E15 & _).
  rewrite E6, E7, E15. auto.
Qed.
Lemma kerr_inv_frame J args f g o s o' s' : cfg o o' -> o_current o' = false -> same_tidy s s' -> kerr_inv J args f g o s -> kerr_inv J args f g o' s'.
Proof.
  intros HC Hc HS (H1 & _ & H3 & H4 & H5 & H6 & H7). assert (EM: s_M s' = s_M s) by (apply same_rhs, HS).
  split; [eapply kerr_ready_frame; eassumption|]. split; [exact Hc|]. split; [eapply consistent_same; [apply HS|exact H3]|].
  split; [eapply grid_symmetry_same; [apply HS|exact H4]|]. split; [|split; [eapply symmetric_state_same; [apply HS|exact H6]|eapply symmetric_media_same; [apply HS|exact H7]]].
  rewrite EM. destruct HC as (_ & C2 & C3 & _). unfold symmetric_settings. rewrite C2, C3. exact H5.
Qed.
Lemma regular_same s s' : same_problem s s' -> regular s -> regular s'.
Proof.
  intros HS (H1 & H2 & H3). destruct (same_rhs _ _ HS) as (_ & EM & _ & EP). unfold regular. rewrite EM, EP. split; [|split].
  - destruct HS as (_ & _ & _ & _ & _ & _ & _ & _ & _ & _ & _ & -> & _). exact H1.
  - intro F. rewrite (nl_matrix_same s s' F HS). apply H2.
  - intros Hp E. destruct (jac_same s s' E HS) as (-> & -> & _). apply H3, Hp.
Qed.
Lemma solve_args_opt e o o' s o1 s1 : o_current o = false -> o_current o' = false -> o_objective o' = o_objective o ->
  solve_arg_fields e (o, s) = ((o1, s1), Ok tt) ->
  exists l, o1 = upd_arglist l o /\ solve_arg_fields e (o', s) = ((upd_arglist l o', s1), Ok tt).
Proof.
  intros H1 H2 HO H. unfold solve_arg_fields, needs_solve in *. rewrite H1 in H. rewrite H2, HO. cbn [negb] in *.
  destruct (solve_fields e false false s) as [s2 [F|x]]; [|discriminate].
  destruct (if is_linear (o_objective o) then _ else _) as [s3 [u|x]]; [|discriminate].
  destruct (arg_fields s3 (ob_args (o_objective o))) as [l|x]; [|discriminate]. injection H as <- <-. exists l. auto.
Qed.
Lemma eval_kerr e J args f g o s o' s' gr : solver_exact e -> real_solver_exact e -> (forall a, In a args -> a = Ez_lin \/ a = Ez_kerr) ->
  symmetric_objective (s_M s) f J -> kerr_inv J args f g o s -> regular_step e o s -> eval_step e (o, s) = ((o', s'), Ok gr) ->
  invariant (s_M s) f gr /\ cfg o o' /\ same_tidy s s'.
Proof.
  intros He Hre Ha HJ HI (HG & HA) H. assert (HI' := HI). destruct HI' as ((H1 & H2 & H3 & H4 & H6 & H7) & Hc & _).
  unfold eval_step, bind, modS in H. destruct (compute_J e (o, s)) as [[o1 s1] [v|x]] eqn:EJ; [|discriminate].
  destruct (compute_J_frame _ _ _ _ _ _ EJ) as (C1 & S1 & _).
  assert (EV: solve_arg_fields e (o, s) = ((o1, s1), Ok tt)).
  { unfold compute_J, bind, getS, lift in EJ. destruct (solve_arg_fields e (o, s)) as [[o0 s0] [[]|x]]; [|discriminate]. cbn [fst] in EJ. injection EJ as <- <- _. reflexivity. }
  cbn [fst snd] in H. set (o1' := push_obj v o1) in *. assert (C1': cfg o o1') by exact C1.
  destruct (set_source_amplitude e (o1', s1)) as [[o2 s2] [[]|x]] eqn:E2; [|discriminate].
  apply set_amp_frame in E2 as (C2 & _ & _ & _ & K2 & L2). destruct L2 as [_ ->]; [|specialize (K2 eq_refl)].
  { destruct C1' as (_ & _ & _ & _ & _ & _ & _ & _ & ->). exact H7. }
  assert (C12 := cfg_trans _ _ _ C1' C2).
  assert (I2: kerr_inv J args f g o2 s1) by (eapply kerr_inv_frame; [exact C12|exact K2|exact S1|exact HI]).
  destruct (compute_dJ e (o2, s1)) as [[o3 s3] r3] eqn:E3. injection H as -> -> ->.
  destruct (compute_dJ_frame _ _ _ _ _ _ E3) as (C3 & S3 & _).
  split; [|split; [exact (cfg_trans _ _ _ C12 C3)|exact (same_tidy_trans _ _ _ S1 S3)]].
  assert (EM: s_M s1 = s_M s) by (apply same_rhs, S1). rewrite <- EM in *. clear HI.
  unfold compute_dJ in E3. destruct (solve_arg_fields e (o2, s1)) as [[o4 s4] [[]|x]] eqn:E4; [|discriminate].
  destruct I2 as ((Q1 & Q2 & (rho & Q3) & Q4 & Q6 & Q7) & _ & QC & QG & QT & QS & QM).
  assert (Hrho: invariant (s_M s1) f rho) by (destruct QS as (_ & _ & r' & R1 & R2); rewrite Q3 in R1; injection R1 as <-; exact R2).
  assert (HAR: adjoint_regular s4).
  { destruct (solve_args_opt e o (upd_current false o) s o1 s1 Hc eq_refl eq_refl EV) as (l1 & -> & EV').
    destruct (solve_args_opt e o2 (upd_current false (upd_arglist l1 (upd_current false o))) s1 o4 s4 K2 eq_refl) as (l2 & _ & EV2); [|exact E4|].
    - transitivity (o_objective o); [reflexivity|]. destruct C12 as [-> _]. reflexivity.
    - exact (HA _ _ _ _ EV' EV2). }
  destruct (args_sym f g e J args o2 s1 o4 s4 rho He Hre Q1 (proj1 QG) (sym_A s1 f g Q1 QC QG QS) Q2 (proj1 QS) (proj1 (proj2 QS)) QM
    (regular_same s s1 (proj1 S1) HG) Q3 Q4 Ha K2 E4 (fun _ => HAR)) as [KG KF].
  destruct (solve_args_opt e o2 o2 s1 o4 s4 K2 K2 eq_refl E4) as (l & EO & _).
  assert (EO4: o_objective o4 = set_J J args) by (rewrite EO; exact Q4). rewrite EO4 in E3. cbn [set_J ob_grads ob_dJ ob_args] in E3.
  destruct (grad_loop _ _ _ _ _) as [s5 r5] eqn:E5. injection E3 as _ <- ->.
  rewrite <- Q6 in E5.
  refine (loop_kerr f g e o4 (s_M s1) rho J He (proj1 QG) _ HJ Hrho KF args 0 (fun _ => 0%R) s4 s5 gr (existsb oa_nl args) KG _ (fun _ _ => eq_refl) E5).
  - rewrite EO. exact QT.
  - intros a Hi. destruct (Ha a Hi) as [-> | ->]; [left; reflexivity|right]. split; [reflexivity|]. apply existsb_exists. exists Ez_kerr. auto.
Qed.
Lemma update_kerr J args f g o s o1 s1 d st o' s' : kerr_inv J args f g o s -> cfg o o1 -> same_tidy s s1 -> invariant (s_M s) f d ->
  update_rho d st (o1, s1) = ((o', s'), Ok tt) -> kerr_inv J args f g o' s' /\ s_M s' = s_M s.
Proof.
  intros HI HC HS Hd H. assert (I1: kerr_inv J args f g (upd_current false o1) s1) by (eapply kerr_inv_frame; [exact HC|reflexivity|exact HS|exact HI]).
  assert (EM: s_M s1 = s_M s) by (apply same_rhs, HS). rewrite <- EM in Hd. rewrite <- EM. clear HI HC HS EM o s.
  apply update_rho_spec in H as [(_ & rho & Hr & E)|([x Hx] & _)]; [|discriminate]. injection E as -> ->.
  destruct I1 as ((H1 & H2 & H3 & H4 & H6 & H7) & Hc & HC & HG & HT & HS & HM).
  cbn [o_objective o_max_shift upd_current] in H4, H7.
  destruct (with_density_A o1 s1 (fun k => clip01 (rho k + o_design o1 k * st * d k)%R) H1 HC) as (EM & _).
  assert (Ir: invariant (s_M s1) f (fun k => clip01 (rho k + o_design o1 k * st * d k)%R)).
  { intros k Hk. cbv beta. destruct HS as (_ & _ & rho' & E1 & E2). rewrite Hr in E1. injection E1 as <-.
    rewrite (E2 k Hk), (Hd k Hk), (proj1 HT k Hk : o_design o1 (f k) = o_design o1 k). reflexivity. }
  set (r := fun k => clip01 _) in *. split; [|exact EM].
  split; [split; [exact H1|split; [exact H2|split; [eexists; reflexivity|auto]]]|]. split; [reflexivity|].
  split; [apply set_eps_consistent|]. split; [exact HG|]. split; [exact HT|]. split; [|exact HM].
  split; [exact (proj1 HS)|]. split; [|exists r; split; [reflexivity|exact Ir]].
  exact (sym_eps (s_M s1) f g (proj1 HG) (o_W o1) r _ _ _ (proj2 HT) Ir).
Qed.
Lemma gen_kerr {A} e (dir : A -> nat -> rvec -> rvec) next step J args f g n0 (P : A -> Prop) : solver_exact e -> real_solver_exact e ->
  (forall a, In a args -> a = Ez_lin \/ a = Ez_kerr) -> symmetric_objective n0 f J ->
  (forall a i gr, P a -> invariant n0 f gr -> invariant n0 f (dir a i gr) /\ P (next a gr)) ->
  forall n i a o s o' s', s_M s = n0 -> P a -> kerr_inv J args f g o s ->
  (forall k o1 s1, k < n -> gen e dir next step k i a (o, s) = ((o1, s1), Ok tt) -> regular_step e o1 s1) ->
  gen e dir next step n i a (o, s) = ((o', s'), Ok tt) -> kerr_inv J args f g o' s' /\ s_M s' = n0.
Proof.
  intros He Hre Ha HJ HP. induction n as [|n IH]; intros i a o s o' s' EM Pa HI HN H; [cbn in H; injection H as <- <-; auto|].
  cbn [gen] in H. unfold bind in H. destruct (eval_step e (o, s)) as [[o1 s1] [gr|x]] eqn:E1; [|discriminate].
  destruct (update_rho (dir a i gr) step (o1, s1)) as [[o2 s2] [[]|x]] eqn:E2; [|discriminate].
  destruct (eval_kerr e J args f g o s o1 s1 gr) as (Ig & C1 & S1); try assumption; [rewrite EM; exact HJ|apply (HN 0 o s); [lia|reflexivity]|].
  rewrite EM in Ig. destruct (HP a i gr Pa Ig) as [Id Pn].
  destruct (update_kerr J args f g o s o1 s1 (dir a i gr) step o2 s2) as [I2 EM2]; try assumption; [rewrite EM; exact Id|].
  apply (IH (S i) (next a gr) o2 s2 o' s'); try assumption; [congruence|].
  intros k o3 s3 Hk H3. apply (HN (S k) o3 s3); [lia|]. cbn [gen]. unfold bind. rewrite E1, E2. exact H3.
Qed.
Lemma kerr_run : forall e m n step b1 b2 J args f g o s o' s', m = MGD \/ m = MADAM -> solver_exact e -> real_solver_exact e ->
  kerr_ready J args o s -> (forall a, In a args -> a = Ez_lin \/ a = Ez_kerr) -> consistent s ->
  grid_symmetry s f g -> symmetric_objective (s_M s) f J -> symmetric_settings (s_M s) f o -> symmetric_state f s -> symmetric_media f s ->
  (forall k o1 s1, k < n -> run e m k step b1 b2 (o, s) = ((o1, s1), Ok tt) -> regular_step e o1 s1) ->
  run e m n step b1 b2 (o, s) = ((o', s'), Ok tt) -> symmetric_state f s' /\ s_M s' = s_M s.
Proof.
  intros e m n step b1 b2 J args f g o s o' s' Hm He Hre HR Ha HC HG HJ HT HS HM HN H.
  assert (HI: kerr_inv J args f g (upd_current false o) s).
  { split; [exact HR|]. split; [reflexivity|]. split; [exact HC|]. split; [exact HG|]. split; [exact HT|]. split; [exact HS|exact HM]. }
  destruct (proj1 (proj2 (proj2 HR))) as [rho Hr]. unfold run in H, HN. cbn [snd fst] in H, HN. rewrite Hr in H, HN.
  destruct Hm as [-> | ->].
  - rewrite (gen_GD e step n 0) in H.
    eapply (gen_kerr e gd_dir gd_next step J args f g (s_M s) (fun _ => True)) in H; try eassumption; auto.
    + destruct H as [(_ & _ & _ & _ & _ & H & _) E]. auto.
    + intros k o1 s1 Hk H1. apply (HN k o1 s1 Hk). rewrite (gen_GD e step k 0). exact H1.
  - rewrite gen_ADAM in H.
    eapply (gen_kerr e (ad_dir b1 b2) (ad_next b1 b2) step J args f g (s_M s) (fun a => invariant (s_M s) f (fst a) /\ invariant (s_M s) f (snd a))) in H; try eassumption; auto.
    + destruct H as [(_ & _ & _ & _ & _ & H & _) E]. auto.
    + intros [mm v] i gr [I1 I2] Ig. cbn [fst snd] in I1, I2. unfold ad_dir, ad_next. cbn [fst snd].
      split; [|split]; intros k Hk; rewrite ?(I1 k Hk), ?(I2 k Hk), ?(Ig k Hk); reflexivity.
    + split; intros k Hk; reflexivity.
    + intros k o1 s1 Hk H1. apply (HN k o1 s1 Hk). rewrite gen_ADAM. exact H1.
Qed.

(** ** The theorem *)
Theorem C93_kerr_optimizers_keep_symmetry : forall e m n step b1 b2 J args f o s o' s',
  m = MGD \/ m = MADAM -> solver_exact e -> real_solver_exact e -> kerr_ready J args o s ->
  (forall a, In a args -> new_obj_arg "Ez" false = Ok a \/ new_obj_arg "Ez" true = Ok a) ->
  consistent s -> physical s -> symmetry_of_grid s f -> symmetric_objective (s_M s) f J ->
  symmetric_settings (s_M s) f o -> symmetric_state f s -> symmetric_media f s ->
  (forall k o1 s1, k < n -> run e m k step b1 b2 (o, s) = ((o1, s1), Ok tt) -> regular_step e o1 s1) ->
  run e m n step b1 b2 (o, s) = ((o', s'), Ok tt) ->
  exists rho', s_rho s' = Val rho' /\ invariant (s_M s) f rho' /\ invariant (s_M s) f (nd_buf (s_eps s')).
Proof.
  intros e m n step b1 b2 J args f o s o' s' Hm He Hre HR Ha HC HP HG HJ HT HS HM HN H.
  destruct (symmetry_of_grid_ok s f HP (proj1 HR) HG) as [g Hg].
  destruct (kerr_run e m n step b1 b2 J args f g o s o' s' Hm He Hre HR) as [(_ & H1 & rho' & H2 & H3) EM]; try assumption.
  - intros a Hi. destruct (Ha a Hi) as [E|E]; cbn in E; injection E as <-; [left|right]; reflexivity.
  - rewrite EM in *. exists rho'. auto.
Qed.

(** ** Example: 5 x 5 pixels with layers, a Kerr medium, symmetric about the diagonal *)
Definition ex_b : R := (1 / 10 ^ 6)%R.
Definition ex_K (s0 : sim) : sim :=
  upd_rho (Val (fun _ => 0%R)) (upd_src (mkNd 5 5 (fun _ => (RtoC (ex_q * ex_b) / (Ci * RtoC ex_omega))%C))
    (fst (add_nl (2 / 3) (fun _ => 1%R) "kerr" false None s0))).
Definition exk (s : sim) : Prop :=
  s_pol s = PolEz /\ s_M s = 25 /\ nd_size (s_src s) = 25 /\ s_omega s = ex_omega /\ s_L0 s = 1%R /\
  (exists m, s_nl s = [mkNonlin (2 / 3) (fun _ => 1%R) false m]) /\ (forall k, nd_buf (s_eps s) k = 1%R) /\
  s_A s = fst (construct_A ex_omega (0, INR 5 * 1)%R (0, INR 5 * 1)%R 5 5 (cvec (fun _ => 1%R)) (1, 1) PolEz 1 true) /\
  (forall k, rhs s k = RtoC (ex_q * ex_b)).
Lemma exk_nl s F k : exk s -> s_eps_nl (compute_nl F s) k = (2 * Cnorm2 (F k))%R /\ s_dnl_de (compute_nl F s) k = (RtoC 2 * Cconj (F k))%C.
Proof.
  intros (_ & _ & _ & _ & _ & [m EN] & _). cbn [compute_nl upd_nlvals s_eps_nl s_dnl_de].
  rewrite sum_eps_nl_coef, sum_dnl_de_coef, EN. unfold kerr_coef, nl_scale. cbn [fold_right nl_chi nl_region nl_eps_scale].
  split; [field|]. f_equal. f_equal. field.
Qed.
Lemma exk_same s s' : same_problem s s' -> exk s -> exk s'.
Proof.
  intros HS. destruct (same_rhs _ _ HS) as (E1 & E2 & E3 & E4). destruct HS as (F1 & F2 & _ & _ & _ & _ & _ & _ & _ & _ & F11 & F12 & _ & _ & F15 & _).
  unfold exk. rewrite E1, E2, E3, E4, F1, F2, F11, F12, F15. auto.
Qed.
Lemma ex_K_exk s0 : fam_sim "Ez" 5 5 1 1 (fun _ => 1%R) = Ok s0 -> exk (ex_K s0) /\ consistent (ex_K s0).
Proof.
  intros H0. assert (HC := Simulation_consistent _ _ _ _ _ _ _ H0).
  unfold fam_sim, Simulation in H0. destruct (check_inputs _ _ _ _); [|discriminate]. injection H0 as H0. set (s := ex_K s0). split; [|exact HC].
  split; [unfold s, ex_K; rewrite <- H0; reflexivity|]. split; [unfold s, ex_K; rewrite <- H0; reflexivity|]. split; [reflexivity|].
  split; [unfold s, ex_K; rewrite <- H0; reflexivity|]. split; [unfold s, ex_K; rewrite <- H0; reflexivity|].
  split. { unfold s, ex_K. rewrite <- H0. eexists. cbn. replace (2 / 3 / (1 * (1 * 1)))%R with (2 / 3)%R by field. reflexivity. }
  split; [intro k; unfold s, ex_K; rewrite <- H0; reflexivity|]. split; [unfold s, ex_K; rewrite <- H0; reflexivity|].
  intro k. unfold rhs. change (s_omega s) with (s_omega s0). rewrite <- H0. cbn [s ex_K upd_rho upd_src s_src nd_buf set_eps s_omega].
  assert (P := Ci_neq0). assert (RtoC ex_omega <> RtoC 0) by (apply RtoC_neq0; assert (Q := ex_omega_pos); lra). field. auto.
Qed.
Lemma exk_wide s (D : rvec) (Q : vec) : exk s -> (forall k, k < 25 -> (Cmod (Q k) <= D k)%R) ->
  widely_injective 25 (mplus (s_A s) (mdiag (fun k => RtoC (ex_q * D k)))) (mdiag (fun k => RtoC ex_q * Q k)%C).
Proof.
  intros (_ & _ & _ & _ & _ & _ & _ & -> & _) HD. assert (N5: (0 < INR 5 * 1)%R) by (simpl; lra).
  apply (Ez_widely_pml ex_omega 1 5 5 (1, 1) (0, INR 5 * 1)%R (0, INR 5 * 1)%R (fun _ => 1%R) true 1 (fun k => ex_q * D k)%R (fun k => RtoC ex_q * Q k)%C);
    try (cbn [fst snd]; (lra || lia || apply ex_omega_pos)).
  { apply dL_new; lia. }
  intros k z Hk Hz. change (5 * 5) with 25 in Hk. specialize (HD k Hk). assert (Pz: (0 < Cmod z)%R) by (apply Cmod_gt_0; exact Hz).
  set (m := (MU_0 * 1 * (1 * 1))%R). assert (Hm := ex_mu_pos). fold m in Hm. assert (E := ex_q_mu). fold m in E.
  assert (Pq: (0 <= ex_q)%R) by nra. assert (PQ := Cmod_ge_0 (Q k)).
  replace (ex_omega ^ 2 * (EPSILON_0 * 1) * 1 + ex_q * D k)%R with (ex_q * (1 + D k))%R by (unfold ex_q; ring).
  set (u := (RtoC (ex_q * (1 + D k)) * z)%C). set (v := (RtoC ex_q * Q k * Cconj z)%C).
  assert (Hu: Cmod u = ((1 + D k) * ex_q * Cmod z)%R) by (unfold u; rewrite Cmod_mult, Cmod_R, Rabs_pos_eq by nra; ring).
  assert (Hv: Cmod v = (Cmod (Q k) * ex_q * Cmod z)%R) by (unfold v; rewrite !Cmod_mult, Cmod_conj, Cmod_R, Rabs_pos_eq by exact Pq; ring).
  assert (TT := Cmod_triangle (u + v)%C (- v)%C). rewrite Cmod_opp in TT. replace (u + v + - v)%C with u in TT by ring. rewrite Hu, Hv in TT.
  assert (T: (ex_q * Cmod z <= Cmod (u + v)%C)%R).
  { assert (0 <= (D k - Cmod (Q k)) * (ex_q * Cmod z))%R by (apply Rmult_le_pos; [lra|apply Rmult_le_pos; lra]). lra. }
  apply Rlt_le_trans with (m * (ex_q * Cmod z))%R; [|apply Rmult_le_compat_l; lra]. rewrite <- Rmult_assoc, E. lra.
Qed.
Lemma exk_wide_meq s A B D Q : exk s -> (forall k, k < 25 -> (Cmod (Q k) <= D k)%R) -> meq 25 A (mplus (s_A s) (mdiag (fun k => RtoC (ex_q * D k)))) ->
  meq 25 B (mdiag (fun k => RtoC ex_q * Q k)%C) -> widely_injective 25 A B.
Proof. intros HK HD HA HB. eapply widely_injective_ext; [apply meq_sym, HA|apply meq_sym, HB|]. apply exk_wide; assumption. Qed.
Lemma widely_zero n A : widely_injective n A mzero -> nonsingular n A.
Proof.
  intro H. apply injective_nonsingular. intros x Hx. apply H. intros r Hr. refine (eq_trans _ (Hx r Hr)).
  rewrite (csum_0 n (fun c => mzero r c * Cconj (x c))%C) by (intros; unfold mzero; ring). unfold mv. ring.
Qed.
Lemma exk_regular s : exk s -> regular s.
Proof.
  intro HK. assert (HK' := HK). destruct HK' as (EP & EM & ES & EO & EL & EN & EE & EA & ER). unfold regular. rewrite EM.
  assert (Z: meq 25 mzero (mdiag (fun k => RtoC ex_q * RtoC 0)%C)) by (intros i j _ _; unfold mzero, mdiag; destruct (Nat.eqb i j); ring).
  split; [|split].
  - apply widely_zero. apply (exk_wide_meq s _ _ (fun _ => 0%R) (fun _ => RtoC 0) HK); [intros; rewrite Cmod_0; lra| |exact Z].
    intros i j _ _. unfold mplus, mdiag. rewrite Rmult_0_r. destruct (Nat.eqb i j); ring.
  - intro F. apply widely_zero. apply (exk_wide_meq s _ _ (fun k => 2 * Cnorm2 (F k))%R (fun _ => RtoC 0) HK); [| |exact Z].
    + intros k _. rewrite Cmod_0. assert (P := Cnorm2_ge0 (F k)). lra.
    + intros i j Hi Hj. unfold nl_matrix, mplus, mdiag. f_equal. destruct (Nat.eqb i j); [|reflexivity].
      rewrite (proj1 (exk_nl s F i HK)), EO, EL. f_equal. unfold ex_q. ring.
  - intros _ E. destruct (nl_jac_L s E EP) as [J1 J2]. rewrite EM in J1, J2.
    eapply widely_injective_ext; [apply meq_sym, J1|apply meq_sym, J2|].
    assert (KC: forall k, kcoef s k = (RtoC ex_q * RtoC 2)%C).
    { intro k. unfold kcoef, kap. destruct EN as [m EN]. rewrite EN, EO, EL. unfold kerr_coef, nl_scale. cbn [fold_right nl_chi nl_region nl_eps_scale].
      rewrite <- RtoC_mult. f_equal. unfold ex_q. field. }
    apply (exk_wide_meq s _ _ (fun k => 4 * Cnorm2 (E k))%R (fun k => RtoC 2 * (E k * E k))%C HK).
    + intros k _. rewrite !Cmod_mult, Cmod_R, Rabs_pos_eq by lra. assert (P := Cnorm2_ge0 (E k)). assert (Q := Cmod2 (E k)). simpl in Q. nra.
    + intros i j Hi Hj. unfold L11, mplus, mdiag. f_equal. destruct (Nat.eqb i j); [|reflexivity]. rewrite KC, Cmult_conj_r.
      replace (4 * Cnorm2 (E i))%R with (2 * (2 * Cnorm2 (E i)))%R by ring. rewrite !RtoC_mult. ring.
    + intros i j Hi Hj. unfold L12, mdiag. destruct (Nat.eqb i j); [|reflexivity]. rewrite KC. ring.
Qed.
Definition ex_y : R := (ex_b / (1 + 2 * (ex_b * ex_b)))%R.
Lemma ex_b_pos : (0 < ex_b)%R.
Proof. unfold ex_b. apply Rdiv_lt_0_compat; [lra|apply pow_lt; lra]. Qed.
Lemma ex_y_pos : (0 < ex_y)%R.
Proof. assert (P := ex_b_pos). unfold ex_y. apply Rdiv_lt_0_compat; [exact P|nra]. Qed.
Lemma ex_change : (Rabs (ex_y - ex_b) = 2 * (ex_b * ex_b) * ex_y)%R.
Proof.
  assert (P := ex_b_pos). assert (Q := ex_y_pos). assert (D: (0 < 1 + 2 * (ex_b * ex_b))%R) by nra.
  replace (ex_y - ex_b)%R with (- (2 * (ex_b * ex_b) * ex_y))%R.
  - rewrite Rabs_Ropp. apply Rabs_pos_eq. apply Rmult_le_pos; nra.
  - unfold ex_y. field. lra.
Qed.
Lemma ex_small : (2 * (ex_b * ex_b) < 1 / 10 ^ 10)%R.
Proof. unfold ex_b. lra. Qed.
Lemma exk_apply s F c k : exk s -> k < 25 -> Cnorm2 (F k) = (ex_b * ex_b)%R ->
  mv 25 (nl_matrix s F) (fun _ => c) k = (RtoC (ex_q * (1 + 2 * (ex_b * ex_b))) * c)%C.
Proof.
  intros HK Hk HF. assert (HK' := HK). destruct HK' as (_ & EM & _ & EO & EL & _ & _ & EA & _).
  assert (HM := nl_matrix_mv s F (fun _ => c) k). rewrite EM in HM. rewrite (HM Hk). clear HM. rewrite (proj1 (exk_nl s F k HK)), HF, EO, EL.
  change (csum 25 (fun c0 => s_A s k c0 * c)%C) with (mv (5 * 5) (s_A s) (fun _ => c) k). rewrite EA.
  rewrite (Ez_const ex_omega 1 5 5 (1,1) _ _ (cvec (fun _ => 1%R)) true 1 c k); [|lia|lia|apply dL_new; lia|lra|exact Hk].
  unfold cvec, ex_q. set (w := ex_omega). set (p := EPSILON_0). apply C_ext; autorewrite with reim; simpl; ring.
Qed.
Lemma exk_lin e s : solver_exact e -> exk s -> veq 25 (lin_solution e s) (fun _ => RtoC ex_b).
Proof.
  intros He HK. assert (HK' := HK). destruct HK' as (_ & EM & _ & EO & EL & _ & _ & EA & ER). assert (HR := exk_regular s HK).
  destruct HR as [HR _]. rewrite EM in HR.
  eapply solves_unique; [exact HR|rewrite <- EM; apply lin_solution_solves; [exact He|rewrite EM; exact HR]|].
  rewrite solves_mv. intros k Hk. rewrite ER, EA.
  change 25 with (5 * 5). rewrite (Ez_const ex_omega 1 5 5 (1,1) _ _ (cvec (fun _ => 1%R)) true 1 (RtoC ex_b) k); [|lia|lia|apply dL_new; lia|lra|exact Hk].
  unfold cvec, ex_q. rewrite !RtoC_mult. ring.
Qed.
Lemma born_one e s X0 X1 thr n : solver_exact e -> nd_size (s_src s) = s_M s -> s_fields s (pol_comp (s_pol s)) = Some X0 ->
  nonsingular (s_M s) (nl_matrix s X0) -> solves (s_M s) (nl_matrix s X0) X1 (rhs s) ->
  nrm (s_M s) X1 <> 0%R -> (nrm (s_M s) (vminus X1 X0) / nrm (s_M s) X1 < thr)%R ->
  exists Fx Fy Fz c, born_solve e None thr (S n) false s = (compute_nl X0 s, Ok (Fx, Fy, Fz, [c] ++ repeat (Fin 0) n)) /\ veq (s_M s) Fz X1.
Proof.
  intros He Hs HF N0 S0 Hn Ht. unfold born_solve, start_field. rewrite HF. cbn [born_loop].
  destruct (solve_nl_ok e false X0 s Hs) as (a & b & Y1 & -> & HY1).
  assert (E1: veq (s_M s) Y1 X1) by (eapply solves_unique; [exact N0|eapply solver_direct_correct; eassumption|exact S0]).
  change (s_M (compute_nl X0 s)) with (s_M s).
  assert (EC: convergence (s_M s) Y1 X0 = Fin (nrm (s_M s) (vminus X1 X0) / nrm (s_M s) X1)).
  { unfold convergence, xdiv. rewrite (nrm_ext _ Y1 X1 E1). destruct (Req_EM_T (nrm (s_M s) X1) 0); [contradiction|].
    f_equal. f_equal. apply nrm_ext. intros k Hk. unfold vminus. rewrite (E1 k Hk). reflexivity. }
  rewrite EC. cbn [xlt]. destruct (Rlt_dec _ thr) as [_|HH]; [|exfalso; lra].
  do 4 eexists. split; [unfold conv_array; cbn [List.length List.app Nat.sub]; rewrite Nat.sub_0_r; reflexivity|]. exact E1.
Qed.
Lemma exk_solve e s : solver_exact e -> exk s ->
  exists s2 F, solve_fields_nl_default e (solved e s) = (s2, Ok F) /\
   exists En Fp, s_fields_nl s2 Ez = Some En /\ veq 25 En (fun _ => RtoC ex_y) /\ veq 25 Fp (fun _ => RtoC ex_b) /\
     s_Anl s2 = s_Anl (compute_nl Fp s) /\ s_dnl_de s2 = s_dnl_de (compute_nl Fp s) /\ s_fields s2 = s_fields (solved e s) /\ s_rho s2 = s_rho s.
Proof.
  intros He HK. assert (EX := exk_lin e s He HK). assert (HK' := HK). destruct HK' as (EP & EM & ES & _ & _ & _ & _ & _ & ER).
  destruct (exk_regular s HK) as (_ & HR & _). rewrite EM in HR. assert (Pb := ex_b_pos). assert (Py := ex_y_pos).
  set (s1 := solved e s) in *. assert (EM1: s_M s1 = 25) by exact EM. assert (Emat: forall F, nl_matrix s1 F = nl_matrix s F) by reflexivity.
  assert (H1: forall k, k < 25 -> Cnorm2 (lin_solution e s k) = (ex_b * ex_b)%R) by (intros k Hk; rewrite (EX k Hk); unfold Cnorm2; simpl; ring).
  assert (Hnrm: forall v c, veq 25 v (fun _ => RtoC c) -> nrm 25 v = (5 * Rabs c)%R).
  { intros v c Hv. unfold nrm. rewrite (rsum_ext 25 _ (fun _ => c * c)%R).
    2: { intros k Hk. rewrite (Hv k Hk). unfold Cnorm2. simpl. ring. }
    transitivity (sqrt ((5 * c) * (5 * c))); [f_equal; cbn [rsum]; ring|]. change ((5 * c) * (5 * c))%R with (Rsqr (5 * c)).
    rewrite sqrt_Rsqr_abs, Rabs_mult, (Rabs_pos_eq 5) by lra. reflexivity. }
  destruct (born_one e s1 (lin_solution e s) (fun _ => RtoC ex_y) (1 / 10 ^ 10) 19 He) as (Fx & Fy & Fz & c & HB & HFz).
  - rewrite EM1. exact ES.
  - change (s_pol s1) with (s_pol s). unfold s1, solved. cbn [upd_fields s_fields]. rewrite EP. reflexivity.
  - rewrite EM1, Emat. apply HR.
  - rewrite EM1, Emat, solves_mv. intros k Hk. rewrite (exk_apply s (lin_solution e s) (RtoC ex_y) k HK Hk (H1 k Hk)).
    change (rhs s1 k) with (rhs s k). rewrite ER, <- RtoC_mult. f_equal. unfold ex_y. assert (D: (0 < 1 + 2 * (ex_b * ex_b))%R) by nra. field. lra.
  - rewrite EM1, (Hnrm _ ex_y) by (intros k _; reflexivity). rewrite Rabs_pos_eq by lra. lra.
  - rewrite EM1, (Hnrm (fun _ => RtoC ex_y) ex_y) by (intros k _; reflexivity).
    rewrite (Hnrm (vminus (fun _ => RtoC ex_y) (lin_solution e s)) (ex_y - ex_b)%R).
    2: { intros k Hk. unfold vminus. rewrite (EX k Hk). apply C_ext; simpl; lra. }
    rewrite ex_change, (Rabs_pos_eq ex_y) by lra. assert (Q := ex_small).
    replace (5 * (2 * (ex_b * ex_b) * ex_y) / (5 * ex_y))%R with (2 * (ex_b * ex_b))%R by (field; lra). exact Q.
  - rewrite EM1 in HFz. unfold solve_fields_nl_default, solve_fields_nl, run_solver_nl.
    change (String.eqb "hybrid" "born") with false. change (String.eqb "hybrid" "newton") with false. change (String.eqb "hybrid" "LM") with false.
    change (String.eqb "hybrid" "krylov") with false. change (String.eqb "hybrid" "hybrid") with true. cbv iota beta.
    rewrite HB. unfold last_conv.
    assert (EL1: rev ([c] ++ repeat (Fin 0) 19) = Fin 0 :: rev ([c] ++ repeat (Fin 0) 18)) by reflexivity. rewrite EL1. cbn [xgt].
    assert (P10: (0 < 1 / 10 ^ 10)%R) by (apply Rdiv_lt_0_compat; [lra|apply pow_lt; lra]).
    destruct (Rlt_dec (1 / 10 ^ 10) 0) as [HH|_]; [lra|].
    do 2 eexists. split; [reflexivity|]. exists Fz, (lin_solution e s). cbn [compute_nl upd_nlvals s_pol]. change (s_pol s1) with (s_pol s). rewrite EP.
    split; [reflexivity|]. split; [exact HFz|]. split; [exact EX|]. repeat split.
Qed.
Lemma exk_args e s o : solver_exact e -> exk s -> o_current o = false -> o_objective o = set_J (intensity 25 2) [Ez_kerr; Ez_lin] ->
  exists l1 l2 s2, solve_arg_fields e (o, s) = ((upd_arglist [l1; l2] o, s2), Ok tt) /\ exk s2 /\ adjoint_regular s2 /\
    s_rho s2 = s_rho s /\ (exists E An, s_fields_nl s2 Ez = Some E /\ s_Anl s2 = Some (25, An)) /\ (exists E, s_fields s2 Ez = Some E).
Proof.
  intros He HK Hc HO. assert (HK' := HK). destruct HK' as (EP & EM & ES & EO & EL & _ & _ & EA & ER).
  destruct (exk_solve e s He HK) as (s2 & F & HS & En & Fp & H1 & H2 & H3 & H4 & H5 & H6 & H7).
  assert (Hs: nd_size (s_src s) = s_M s) by (rewrite EM; exact ES).
  destruct (solve_fields_lin e false s Hs) as [X [HX HE]]. cbv zeta in HE.
  assert (HXs: lin_solution e s = X) by (unfold lin_solution; rewrite HX; reflexivity). rewrite <- HXs in HE.
  change (upd_fields _ s) with (solved e s) in HE.
  assert (HL: s_fields s2 Ez = Some (lin_solution e s)) by (rewrite H6; unfold solved; rewrite EP; reflexivity).
  exists En, (lin_solution e s), s2.
  assert (HR: solve_arg_fields e (o, s) = ((upd_arglist [En; lin_solution e s] o, s2), Ok tt)).
  { unfold solve_arg_fields, needs_solve. rewrite Hc, HO. cbn [negb]. rewrite HE.
    change (is_linear (set_J (intensity 25 2) [Ez_kerr; Ez_lin])) with false. cbv iota. rewrite HS.
    cbn [set_J ob_args arg_fields oa_nl oa_comp Ez_kerr Ez_lin]. rewrite H1, HL. reflexivity. }
  assert (HK2: exk s2) by (destruct (solve_args_frame _ _ _ _ _ _ HR) as (_ & [T _] & _); exact (exk_same _ _ T HK)).
  split; [exact HR|]. split; [exact HK2|]. split; [|split; [exact H7|split; [|eauto]]].
  2: { exists En. eexists. split; [exact H1|]. rewrite H4. cbn [compute_nl upd_nlvals s_Anl]. rewrite EM. reflexivity. }
  intros E An QE QA. rewrite H1 in QE. injection QE as <-. rewrite H4 in QA. cbn [compute_nl upd_nlvals s_Anl] in QA. injection QA as _ <-.
  assert (HK2' := HK2). destruct HK2' as (_ & EM2 & _ & EO2 & EL2 & _ & _ & EA2 & _). rewrite EM2. apply Cfull_nonsingular.
  assert (Pb := ex_b_pos). assert (Py := ex_y_pos).
  apply (exk_wide_meq s2 _ _ (fun _ => 2 * (ex_b * ex_b + ex_b * ex_y))%R (fun _ => RtoC (2 * (ex_b * ex_y))) HK2).
  - intros k _. rewrite Cmod_R, Rabs_pos_eq by nra. nra.
  - intros i j Hi Hj. unfold kerr_C11, spdiags, mplus, mdiag. destruct (Nat.eqb i j); [|ring].
    unfold kerr_dAde. rewrite H5. destruct (exk_nl s Fp i HK) as [Q1 Q2]. cbn [compute_nl upd_nlvals s_eps_nl s_dnl_de] in Q1, Q2 |- *. rewrite Q1, Q2.
    rewrite (H2 i Hi), (H3 i Hi), EO2, EL2, EO, EL. rewrite <- Cplus_assoc. f_equal. unfold ex_q. set (w := (ex_omega ^ 2 * EPSILON_0)%R).
    replace (ex_omega ^ 2 * (EPSILON_0 * 1))%R with w by (unfold w; ring). apply C_ext; autorewrite with reim; unfold Cnorm2, w; simpl; ring.
  - intros i j Hi Hj. unfold kerr_C12, spdiags, mdiag. destruct (Nat.eqb i j); [|reflexivity].
    unfold kerr_dAde. rewrite H5. destruct (exk_nl s Fp i HK) as [_ Q2]. cbn [compute_nl upd_nlvals s_dnl_de] in Q2 |- *. rewrite Q2.
    rewrite (H2 i Hi), (H3 i Hi), EO2, EL2. unfold ex_q. set (w := (ex_omega ^ 2 * EPSILON_0)%R).
    replace (ex_omega ^ 2 * (EPSILON_0 * 1))%R with w by (unfold w; ring). apply C_ext; autorewrite with reim; simpl; ring.
Qed.
Lemma exk_eval e s o rho : solver_exact e -> exk s -> s_rho s = Val rho -> o_current o = false -> o_max_shift o = None ->
  o_objective o = set_J (intensity 25 2) [Ez_kerr; Ez_lin] ->
  exists o' s' g, eval_step e (o, s) = ((o', s'), Ok g) /\ s_rho s' = Val rho.
Proof.
  intros He HK Hr Hc Hm HO. unfold eval_step, bind, modS, compute_J, bind, getS, lift.
  destruct (exk_args e s o He HK Hc HO) as (l1 & l2 & s2 & -> & HK2 & _ & Hr2 & _). cbn [fst snd].
  assert (HO2: o_objective (upd_arglist [l1; l2] o) = set_J (intensity 25 2) [Ez_kerr; Ez_lin]) by exact HO. rewrite HO2. unfold pf_call. cbn [set_J ob_J stored_args upd_arglist o_arglist List.length pf_arity intensity Nat.eqb negb].
  unfold set_source_amplitude. cbv zeta.
  match goal with |- context [push_amp ?a ?o0] => change (o_max_shift (push_amp a o0)) with (o_max_shift o); rewrite Hm;
    destruct (exk_args e s2 (upd_current false (push_amp a o0)) He HK2 eq_refl HO) as (l4 & l5 & s4 & E4 & HK4 & _ & Hr4 & (E & An & F1 & F2) & (E0 & F3)) end.
  unfold compute_dJ. rewrite E4. destruct HK4 as (EP & EM & _).
  assert (Hr5: s_rho s4 = Val rho) by congruence.
  match goal with |- context [upd_arglist [l4; l5] ?o0] => change (o_objective (upd_arglist [l4; l5] o0)) with (o_objective o); set (oo := upd_arglist [l4; l5] o0) end.
  rewrite HO. cbn [set_J ob_grads ob_dJ ob_args List.map List.combine seq pf_arity intensity].
  cbn [grad_loop Ez_kerr Ez_lin oa_nl oa_gradient oa_comp List.combine List.map run_grad]. rewrite EP. cbn [pol_comp]. rewrite F1.
  assert (HD: forall i, exists v, pf_dcall (intensity 25 2) i (stored_args oo) = Ok v) by (intro; eexists; reflexivity).
  destruct (HD 0) as [v0 HD0]. destruct (HD 1) as [v1 HD1].
  unfold g_kerr_Ez, adjoint_kerr_Ez. rewrite HD0, F2, F1, EM. cbn [Nat.eqb negb].
  match goal with |- context [solver_direct ?a ?b ?c ?d ?f] => destruct (solver_direct_default_ok a b c d) as [aj ->] end.
  unfold get_rho. change (s_rho (compute_nl E s4)) with (s_rho s4). rewrite Hr5. cbn [rbind].
  change (s_pol (compute_nl E s4)) with (s_pol s4). change (s_fields (compute_nl E s4)) with (s_fields s4). rewrite EP. cbn [pol_comp]. rewrite F3.
  unfold g_linear_Ez. rewrite HD1. cbn [rbind]. unfold finish_linear_Ez, adjoint_linear_Ez.
  match goal with |- context [solver_direct ?a ?b ?c ?d ?f] => destruct (solver_direct_default_ok a b c d) as [aj2 ->] end.
  unfold get_rho. change (s_rho (compute_nl E s4)) with (s_rho s4). rewrite Hr5. cbn [rbind].
  do 3 eexists. split; [reflexivity|exact Hr5].
Qed.
Example C93_kerr_met :
  exists s0 ob o, fam_sim "Ez" 5 5 1 1 (fun _ => 1%R) = Ok s0 /\ Objective (intensity 25 2) [Ez_kerr; Ez_lin] = Ok ob /\
  Optimization ob s0 diag_design 5 None (1 / 2) 10 "linear" "hybrid" None = Ok o /\
  solver_exact ex_env_mkl /\ real_solver_exact ex_env_mkl /\
  let s := ex_K s0 in let f := exchange 5 in
  kerr_ready (intensity 25 2) [Ez_kerr; Ez_lin] o s /\
  (forall a, In a [Ez_kerr; Ez_lin] -> new_obj_arg "Ez" false = Ok a \/ new_obj_arg "Ez" true = Ok a) /\
  consistent s /\ physical s /\ symmetry_of_grid s f /\ symmetric_objective (s_M s) f (intensity 25 2) /\
  symmetric_settings (s_M s) f o /\ symmetric_state f s /\ symmetric_media f s /\
  forall m step b1 b2, m = MGD \/ m = MADAM ->
    (forall k o1 s1, k < 1 -> run ex_env_mkl m k step b1 b2 (o, s) = ((o1, s1), Ok tt) -> regular_step ex_env_mkl o1 s1) /\
    exists o' s', run ex_env_mkl m 1 step b1 b2 (o, s) = ((o', s'), Ok tt).
Proof.
  destruct (fam_sim_ok "Ez" 5 5 1 1 (fun _ => 1%R) (or_introl eq_refl)) as [s0 H0].
  destruct (ex_K_exk s0 H0) as [HK HC].
  exists s0. eexists. eexists. split; [exact H0|]. split; [reflexivity|]. split; [reflexivity|].
  split; [apply C29_met|]. split; [apply ex_mkl_real_exact|].
  match goal with |- context [kerr_ready _ _ ?o _] => set (oo := o) end. intros s f. fold s in HK, HC.
  assert (HK' := HK). destruct HK' as (EP & EM & ES & EO & EL & [mo EN] & EE & EA & ER).
  destruct (Simulation_fields _ _ _ _ _ _ _ H0) as (E1 & E2 & E3 & E4 & E5 & E6 & E7 & E8 & P1 & P2 & E9 & _).
  cbn [nd_nx nd_ny] in *. specialize (E9 _ _ eq_refl).
  assert (HRen: renumber 25 25 f f) by apply (renumber_swap 5 5).
  assert (Hex: solver_exact ex_env_mkl) by apply C29_met.
  split. { split; [exact EP|]. split; [rewrite EM; exact ES|]. split; [eexists; reflexivity|]. repeat split. }
  split. { intros a [<-|[<-|[]]]; [right|left]; reflexivity. }
  split; [exact HC|]. split.
  { unfold physical. change (s_Nx s) with (s_Nx s0). change (s_Ny s) with (s_Ny s0). change (s_xrange s) with (s_xrange s0). change (s_yrange s) with (s_yrange s0).
    rewrite EO, EL, E3, E4, E6, E7. assert (P := ex_omega_pos). repeat split; try lia; cbn; lra. }
  split.
  { right; right; left. change (s_Nx s) with (s_Nx s0). change (s_Ny s) with (s_Ny s0). change (s_NPML s) with (s_NPML s0).
    change (s_xrange s) with (s_xrange s0). change (s_yrange s) with (s_yrange s0). rewrite E3, E4, E6, E7, E9. repeat split. }
  rewrite EM. split.
  { intros Fs HF i k Hk. cbn [intensity pf_grad]. do 2 f_equal. destruct (Nat.lt_ge_cases i (List.length Fs)) as [Hi|Hi].
    - apply (HF (nth i Fs vzero)); [apply nth_In; exact Hi|exact Hk].
    - rewrite nth_overflow by exact Hi. reflexivity. }
  split; [split; [intros k Hk; five k Hk|exact (C93_no_filter_symmetric 25 f f HRen)]|]. split.
  { unfold symmetric_state. rewrite EM. split; [intros k _; reflexivity|]. split; [intros k _; rewrite !EE; reflexivity|].
    eexists. split; [reflexivity|]. intros k _. reflexivity. }
  split. { intros q Hq. rewrite EN in Hq. destruct Hq as [<-|[]]. intros k _. reflexivity. }
  intros m step b1 b2 Hm. split.
  - intros k o1 s1 Hk H. replace k with 0 in H by lia. unfold run in H. cbn [snd fst] in H.
    assert (HX: s_rho s = Val (fun _ => 0%R)) by reflexivity. rewrite HX in H.
    assert (HH: (upd_current false oo, s) = (o1, s1)) by (destruct Hm as [-> | ->]; cbn in H; injection H as <- <-; reflexivity).
    injection HH as <- <-. split; [exact (exk_regular s HK)|].
    intros o1 s1 o2 s2 Q1 Q2.
    destruct (exk_args ex_env_mkl s (upd_current false (upd_current false oo)) Hex HK eq_refl eq_refl) as (l1 & l2 & s3 & R1 & R2 & _).
    rewrite R1 in Q1. injection Q1 as <- <-.
    match type of Q2 with solve_arg_fields _ (?oo2, _) = _ => destruct (exk_args ex_env_mkl s3 oo2 Hex R2 eq_refl eq_refl) as (l3 & l4 & s4 & R3 & _ & R4 & _) end.
    rewrite R3 in Q2. injection Q2 as <- <-. exact R4.
  - unfold run. cbn [snd fst]. assert (HX: s_rho s = Val (fun _ => 0%R)) by reflexivity. rewrite HX.
    destruct (exk_eval ex_env_mkl s (upd_current false oo) _ Hex HK HX eq_refl eq_refl eq_refl) as (o1 & s1 & g & HE & Hr).
    destruct Hm as [-> | ->].
    + rewrite run_GD_step. unfold bind. rewrite HE. unfold update_rho. rewrite Hr. do 2 eexists. reflexivity.
    + rewrite run_ADAM_step. unfold bind. rewrite HE. unfold update_rho. rewrite Hr. do 2 eexists. reflexivity.
Qed.
