(** Lemmas for C107: the nonlinear solvers run on two simulations whose pixels are renumbered. *)
From Coq Require Import Reals Lra Lia List ZArith Arith Bool String Permutation.
From Coquelicot Require Import Coquelicot.
From Verif Require Import Base Linear MCore MSim Spec PCore PSim PEx PropsCore PropsSolve PropsNl PropsIter PSym PropsSym PropsUnit PropsLin PropsPower.
Import ListNotations.
Local Open Scope nat_scope.

(** ** sums and norms under a renumbering *)
Lemma rsum_list n h : rsum n h = fold_right Rplus 0%R (map h (seq 0 n)).
Proof.
  induction n; [reflexivity|]. rewrite seq_S, map_app, fold_right_app. cbn [rsum map fold_right Nat.add]. rewrite IHn. clear.
  rewrite Rplus_0_r. generalize (map h (seq 0 n)). intro l. induction l; simpl; [ring|]. rewrite <- IHl. ring.
Qed.
Lemma fold_perm (l l' : list R) : Permutation l l' -> fold_right Rplus 0%R l = fold_right Rplus 0%R l'.
Proof. induction 1; simpl; try lra. Qed.
Lemma rsum_renumber n n' f g h : renumber n n' f g -> rsum n' h = rsum n (fun k => h (f k)).
Proof.
  intros [H1 H2]. rewrite !rsum_list. rewrite <- (map_map f h (seq 0 n)). apply fold_perm. apply Permutation_map. apply NoDup_Permutation.
  - apply seq_NoDup.
  - assert (HN: forall l, NoDup l -> (forall k, In k l -> k < n) -> NoDup (map f l)).
    { induction l as [|a l IH]; intros ND HI; cbn [map]; [constructor|]. inversion ND as [|? ? NI ND']; subst.
      constructor; [|apply IH; [exact ND'|intros; apply HI; right; assumption]].
      intro Q. apply in_map_iff in Q as (b & Eb & Ib). apply NI.
      rewrite <- (proj2 (H1 a (HI a (or_introl eq_refl)))), <- Eb, (proj2 (H1 b (HI b (or_intror Ib)))). exact Ib. }
    apply HN; [apply seq_NoDup|]. intros k Hk. apply in_seq in Hk. lia.
  - intro q. rewrite in_map_iff, in_seq. split.
    + intro Hq. destruct (H2 q) as [Hg Eg]; [lia|]. exists (g q). split; [exact Eg|]. apply in_seq. lia.
    + intros (k & <- & Hk). apply in_seq in Hk. destruct (H1 k) as [Hf _]; lia.
Qed.

Section Moved.
Variables (n n' : nat) (f g : nat -> nat).
Variable der : vec * vec -> vec * vec -> Prop.
Hypothesis HR : renumber n n' f g.
(** the vector [v2] is [v1] renumbered *)
Definition vmov {T} (v1 v2 : nat -> T) : Prop := forall k, k < n -> v2 (f k) = v1 k.
Lemma vmov_g {T} (v1 v2 : nat -> T) : vmov v1 v2 -> forall q, q < n' -> v2 q = v1 (g q).
Proof. intros H q Hq. destruct (proj2 HR q Hq) as [Hg Eg]. rewrite <- (H (g q) Hg), Eg. reflexivity. Qed.
Lemma vmov_nrm v1 v2 : vmov v1 v2 -> nrm n' v2 = nrm n v1.
Proof.
  intro H. unfold nrm. f_equal. rewrite (rsum_renumber n n' f g _ HR). apply rsum_ext. intros k Hk. rewrite (H k Hk). reflexivity.
Qed.
Lemma vmov_minus F1 F2 G1 G2 : vmov F1 F2 -> vmov G1 G2 -> vmov (vminus F1 G1) (vminus F2 G2).
Proof. intros HF HG k Hk. unfold vminus. rewrite (HF k Hk), (HG k Hk). reflexivity. Qed.
Lemma vmov_convergence F1 F2 G1 G2 : vmov F1 F2 -> vmov G1 G2 -> convergence n' F2 G2 = convergence n F1 G1.
Proof. intros HF HG. unfold convergence. rewrite (vmov_nrm _ _ HF), (vmov_nrm _ _ (vmov_minus _ _ _ _ HF HG)). reflexivity. Qed.
Lemma moved_mv A1 A2 x1 x2 k : moved n n' f g A1 A2 -> vmov x1 x2 -> k < n -> mv n' A2 x2 (f k) = mv n A1 x1 k.
Proof.
  intros HM HX Hk. rewrite <- (HM x1 k Hk). apply mv_ext_v. intros c Hc. apply (vmov_g x1 x2 HX c Hc).
Qed.
Record mov_rel (s1 s2 : sim) : Prop := {
  m_omega : s_omega s2 = s_omega s1;
  m_pol : s_pol s2 = s_pol s1;
  m_L0 : s_L0 s2 = s_L0 s1;
  m_M1 : s_M s1 = n;
  m_M2 : s_M s2 = n';
  m_A : moved n n' f g (s_A s1) (s_A s2);
  m_eps : vmov (nd_buf (s_eps s1)) (nd_buf (s_eps s2));
  m_nl : forall k x, k < n -> kerr_coef (s_nl s2) (f k) x = kerr_coef (s_nl s1) k x;
  m_size1 : nd_size (s_src s1) = n;
  m_size2 : nd_size (s_src s2) = n';
  m_src : vmov (nd_buf (s_src s1)) (nd_buf (s_src s2));
  m_der : forall eps1 eps2 X1 X2, vmov eps1 eps2 -> vmov X1 X2 -> der (derived_fields s1 eps1 false X1) (derived_fields s2 eps2 false X2) }.
Definition vmov3 (F1 F2 : vec * vec * vec) : Prop := der (fst F1) (fst F2) /\ vmov (snd F1) (snd F2).

Lemma mv_compute_nl s1 s2 F1 F2 : mov_rel s1 s2 -> mov_rel (compute_nl F1 s1) (compute_nl F2 s2).
Proof. intros []. constructor; assumption. Qed.
Lemma mv_upd_fields s1 s2 F1 F2 : mov_rel s1 s2 -> mov_rel (upd_fields F1 s1) (upd_fields F2 s2).
Proof. intros []. constructor; assumption. Qed.
Lemma mv_upd_fields_nl s1 s2 F1 F2 : mov_rel s1 s2 -> mov_rel (upd_fields_nl F1 s1) (upd_fields_nl F2 s2).
Proof. intros []. constructor; assumption. Qed.
Lemma mv_eps_nl s1 s2 F1 F2 k : mov_rel s1 s2 -> vmov F1 F2 -> k < n -> s_eps_nl (compute_nl F2 s2) (f k) = s_eps_nl (compute_nl F1 s1) k.
Proof.
  intros H HF Hk. cbn [compute_nl upd_nlvals s_eps_nl]. rewrite !sum_eps_nl_coef, (m_eps _ _ H k Hk), (HF k Hk), (m_nl _ _ H k _ Hk). reflexivity.
Qed.
Lemma mv_dnl_de s1 s2 F1 F2 k : mov_rel s1 s2 -> vmov F1 F2 -> k < n -> s_dnl_de (compute_nl F2 s2) (f k) = s_dnl_de (compute_nl F1 s1) k.
Proof.
  intros H HF Hk. cbn [compute_nl upd_nlvals s_dnl_de]. rewrite !sum_dnl_de_coef, (m_eps _ _ H k Hk), (HF k Hk), (m_nl _ _ H k _ Hk). reflexivity.
Qed.
Lemma fk k : k < n -> f k < n'.
Proof. intro Hk. apply HR. exact Hk. Qed.
Lemma mv_nl_matrix s1 s2 F1 F2 : mov_rel s1 s2 -> vmov F1 F2 -> moved n n' f g (nl_matrix s1 F1) (nl_matrix s2 F2).
Proof.
  intros H HF x k Hk. unfold nl_matrix. rewrite !mv_mplus, !mv_diag by (try apply fk; assumption). rewrite (m_A _ _ H) by exact Hk.
  rewrite (mv_eps_nl s1 s2 F1 F2 k H HF Hk), (m_omega _ _ H), (m_L0 _ _ H), (proj2 (proj1 HR k Hk)). reflexivity.
Qed.
Lemma mv_rhs s1 s2 : mov_rel s1 s2 -> vmov (rhs s1) (rhs s2).
Proof. intros H k Hk. unfold rhs. rewrite (m_src _ _ H k Hk), (m_omega _ _ H). reflexivity. Qed.
Lemma mv_epsC s1 s2 : mov_rel s1 s2 -> vmov (s_epsC s1) (s_epsC s2).
Proof. intros H k Hk. unfold s_epsC, cvec. rewrite (m_eps _ _ H k Hk). reflexivity. Qed.
Lemma mv_solution A1 A2 b1 b2 x1 x2 : moved n n' f g A1 A2 -> nonsingular n A1 -> vmov b1 b2 -> solves n A1 x1 b1 -> solves n' A2 x2 b2 -> vmov x1 x2.
Proof. intros HM HA Hb H1 H2 k Hk. exact (moved_solution n n' f g A1 A2 x1 b1 x2 b2 HR HM HA Hb H1 H2 k Hk). Qed.

Lemma mv_solve_lin e s1 s2 s1' F1 : mov_rel s1 s2 -> solver_exact e -> nonsingular n (s_A s1) -> solve_fields e false false s1 = (s1', Ok F1) ->
  exists s2' F2, solve_fields e false false s2 = (s2', Ok F2) /\ vmov3 F1 F2 /\ mov_rel s1' s2' /\
    s_fields s1' (pol_comp (s_pol s1)) = Some (snd F1) /\ s_fields s2' (pol_comp (s_pol s1)) = Some (snd F2).
Proof.
  intros H He HA H1. destruct F1 as [[a1 b1] X1].
  destruct (solve_fields_lin e false s2) as [X2 [HX2 H2]]; [rewrite (m_M2 _ _ H); apply (m_size2 _ _ H)|].
  destruct (solve_fields_lin e false s1) as [X1' [HX1 H1']]; [rewrite (m_M1 _ _ H); apply (m_size1 _ _ H)|].
  rewrite H1' in H1. cbv zeta in H1. injection H1 as <- Ea Eb EX. cbv zeta in H2. subst X1'.
  rewrite (m_M2 _ _ H) in HX2. rewrite (m_M1 _ _ H) in HX1.
  assert (HA2 := moved_nonsingular _ _ _ _ _ _ HR (m_A _ _ H) HA).
  assert (S1 := solver_direct_correct _ _ _ _ _ _ He HA HX1). assert (S2 := solver_direct_correct _ _ _ _ _ _ He HA2 HX2).
  assert (HT := mv_solution _ _ _ _ _ _ (m_A _ _ H) HA (mv_rhs _ _ H) S1 S2).
  do 2 eexists. split; [exact H2|]. split; [|split; [apply mv_upd_fields; assumption|]].
  - split; cbn [fst snd]; [|exact HT]. rewrite <- Ea, <- Eb, <- !surjective_pairing. apply (m_der _ _ H); [apply mv_epsC; exact H|exact HT].
  - cbn [upd_fields s_fields fst snd]. rewrite (m_pol _ _ H). unfold store3. split; unfold fset; destruct (s_pol s1); reflexivity.
Qed.
Lemma mv_solve_nl e s1 s2 F1 F2 : mov_rel s1 s2 -> solver_exact e -> vmov F1 F2 -> nonsingular n (nl_matrix s1 F1) ->
  exists G1 G2, solve_fields e true false (compute_nl F1 s1) = (compute_nl F1 s1, Ok G1) /\
    solve_fields e true false (compute_nl F2 s2) = (compute_nl F2 s2, Ok G2) /\ vmov3 G1 G2.
Proof.
  intros H He HF HA.
  destruct (solve_nl_ok e false F1 s1) as (a1 & b1 & X1 & H1 & HX1); [rewrite (m_M1 _ _ H); apply (m_size1 _ _ H)|].
  destruct (solve_nl_ok e false F2 s2) as (a2 & b2 & X2 & H2 & HX2); [rewrite (m_M2 _ _ H); apply (m_size2 _ _ H)|].
  exists (a1, b1, X1), (a2, b2, X2). split; [exact H1|]. split; [exact H2|].
  rewrite (m_M2 _ _ H) in HX2. rewrite (m_M1 _ _ H) in HX1.
  assert (HM := mv_nl_matrix s1 s2 F1 F2 H HF). assert (HA2 := moved_nonsingular _ _ _ _ _ _ HR HM HA).
  assert (S1 := solver_direct_correct _ _ _ _ _ _ He HA HX1). assert (S2 := solver_direct_correct _ _ _ _ _ _ He HA2 HX2).
  assert (HT := mv_solution _ _ _ _ _ _ HM HA (mv_rhs _ _ H) S1 S2).
  apply solve_fields_ok in H1 as (_ & _ & D1 & _). apply solve_fields_ok in H2 as (_ & _ & D2 & _). cbn [used_eps] in D1, D2.
  split; cbn [fst snd]; [|exact HT]. rewrite D1, D2. apply (m_der _ _ (mv_compute_nl _ _ F1 F2 H)); [|exact HT].
  intros k Hk. rewrite (mv_eps_nl s1 s2 F1 F2 k H HF Hk). f_equal. apply (mv_epsC _ _ H k Hk).
Qed.
(** ** the nonlinear solvers *)
Definition mest_rel (E1 E2 : option vec) : Prop :=
  match E1, E2 with None, None => True | Some F1, Some F2 => vmov F1 F2 | _, _ => False end.
Record mgood (s1 s2 : sim) : Prop := {
  mg_rel : mov_rel s1 s2;
  mg_fields : mest_rel (s_fields s1 (pol_comp (s_pol s1))) (s_fields s2 (pol_comp (s_pol s1)));
  mg_A : nonsingular n (s_A s1);
  mg_nl : forall F, nonsingular n (nl_matrix s1 F);
  mg_jac : s_pol s1 = PolEz -> forall E, widely_injective n (nl_jac11 s1 E) (nl_jac12 s1 E) }.
(** the stored nonlinear quantities are those of the field [F] *)
Definition nl_of (F : vec) (s : sim) : Prop :=
  s_eps_nl s = s_eps_nl (compute_nl F s) /\ s_dnl_de s = s_dnl_de (compute_nl F s) /\ s_Anl s = s_Anl (compute_nl F s).
Definition nlv (s1 s2 : sim) : Prop := exists F1 F2, vmov F1 F2 /\ nl_of F1 s1 /\ nl_of F2 s2.
Lemma mgood_compute s1 s2 F1 F2 : mgood s1 s2 -> vmov F1 F2 -> mgood (compute_nl F1 s1) (compute_nl F2 s2).
Proof.
  intros [H1 H2 H4 H5 H6] HF. constructor; try assumption. apply mv_compute_nl; assumption.
Qed.
Lemma nlv_compute s1 s2 F1 F2 : mgood s1 s2 -> vmov F1 F2 -> nlv (compute_nl F1 s1) (compute_nl F2 s2).
Proof. intros G HF. exists F1, F2. split; [exact HF|]. split; (split; [|split]); reflexivity. Qed.
Lemma nlv_eps s1 s2 : mov_rel s1 s2 -> nlv s1 s2 -> vmov (s_eps_nl s1) (s_eps_nl s2).
Proof. intros U (F1 & F2 & HF & (N1 & _) & (N2 & _)) k Hk. rewrite N1, N2. apply mv_eps_nl; assumption. Qed.
Variable e : env.
Hypothesis (He : solver_exact e) (Hre : real_solver_exact e).
Lemma mgood_lin s1 s2 s1' F1 : mgood s1 s2 -> solve_fields e false false s1 = (s1', Ok F1) ->
  exists s2' F2, solve_fields e false false s2 = (s2', Ok F2) /\ vmov3 F1 F2 /\ mgood s1' s2' /\ s_pol s1' = s_pol s1.
Proof.
  intros G E. destruct (mv_solve_lin e s1 s2 s1' F1 (mg_rel _ _ G) He (mg_A _ _ G) E) as (s2' & F2 & E2 & T & U & FF1 & FF2).
  exists s2', F2. split; [exact E2|]. split; [exact T|].
  destruct (solve_fields_lin e false s1) as (X1' & _ & Q); [rewrite (m_M1 _ _ (mg_rel _ _ G)); apply (m_size1 _ _ (mg_rel _ _ G))|].
  cbv zeta in Q. rewrite Q in E. injection E as <- _.
  destruct (solve_fields_lin e false s2) as (X2' & _ & Q2); [rewrite (m_M2 _ _ (mg_rel _ _ G)); apply (m_size2 _ _ (mg_rel _ _ G))|].
  cbv zeta in Q2. rewrite Q2 in E2. injection E2 as <- _.
  split; [|reflexivity]. destruct G as [H1 H2 H4 H5 H6]. constructor; try assumption.
  change (s_pol (upd_fields _ s1)) with (s_pol s1). rewrite FF1, FF2. apply T.
Qed.
Lemma mv_start s1 s2 E1 E2 s1' F1 : mgood s1 s2 -> mest_rel E1 E2 ->
  start_field e (pol_comp (s_pol s1)) E1 s1 = (s1', Ok F1) ->
  exists s2' F2, start_field e (pol_comp (s_pol s1)) E2 s2 = (s2', Ok F2) /\ vmov F1 F2 /\ mgood s1' s2' /\ s_pol s1' = s_pol s1.
Proof.
  intros G HE H. unfold start_field in *. destruct E1 as [E1|]; destruct E2 as [E2|]; try contradiction.
  - injection H as <- <-. do 2 eexists. split; [reflexivity|]. split; [assumption|]. split; [exact G|]. reflexivity.
  - assert (HF := mg_fields _ _ G). destruct (s_fields s1 _) as [G1|] eqn:Q1; destruct (s_fields s2 _) as [G2|]; try contradiction.
    + injection H as <- <-. do 2 eexists. split; [reflexivity|]. split; [assumption|]. split; [exact G|]. reflexivity.
    + destruct (solve_fields e false false s1) as [s3 [[[a b] X]|]] eqn:E; [|discriminate]. injection H as <- <-.
      destruct (mgood_lin s1 s2 s3 (a, b, X) G E) as (s2' & [[a2 b2] X2] & E2 & T & U & EP).
      rewrite E2. exists s2', X2. split; [reflexivity|]. split; [apply T|]. split; assumption.
Qed.
Definition morel (r1 r2 : option (vec * vec * vec)) : Prop :=
  match r1, r2 with None, None => True | Some F1, Some F2 => vmov3 F1 F2 | _, _ => False end.
Lemma mv_born_loop thr m : forall s1 s2 F1 F2, mgood s1 s2 -> vmov F1 F2 ->
  exists s1' s2' r1 r2 l, born_loop e thr m F1 s1 = (s1', Ok (r1, l)) /\ born_loop e thr m F2 s2 = (s2', Ok (r2, l)) /\
    morel r1 r2 /\ mgood s1' s2' /\ s_pol s1' = s_pol s1 /\ (0 < m \/ nlv s1 s2 -> nlv s1' s2').
Proof.
  induction m; intros s1 s2 F1 F2 G HF; cbn [born_loop].
  - do 5 eexists. split; [reflexivity|]. split; [reflexivity|]. split; [exact I|]. split; [exact G|]. split; [reflexivity|]. intros [Q|Q]; [lia|exact Q].
  - destruct (mv_solve_nl e s1 s2 F1 F2 (mg_rel _ _ G) He HF (mg_nl _ _ G F1)) as ([[a1 b1] X1] & [[a2 b2] X2] & E1 & E2 & T).
    rewrite E1, E2. assert (HX: vmov X1 X2) by apply T.
    change (s_M (compute_nl F1 s1)) with (s_M s1). change (s_M (compute_nl F2 s2)) with (s_M s2).
    rewrite (m_M1 _ _ (mg_rel _ _ G)), (m_M2 _ _ (mg_rel _ _ G)).
    rewrite (vmov_convergence X1 X2 F1 F2 HX HF).
    assert (G' := mgood_compute s1 s2 F1 F2 G HF).
    destruct (xlt _ thr).
    + do 5 eexists. split; [reflexivity|]. split; [reflexivity|]. split; [exact T|]. split; [exact G'|]. split; [reflexivity|]. intros _. apply nlv_compute; assumption.
    + destruct (IHm (compute_nl F1 s1) (compute_nl F2 s2) X1 X2 G' HX) as (s1' & s2' & r1 & r2 & l & -> & -> & O & G2 & EP & EN).
      assert (EN' : 0 < S m \/ nlv s1 s2 -> nlv s1' s2') by (intros _; apply EN; right; apply nlv_compute; assumption).
      destruct r1 as [R1|]; destruct r2 as [R2|]; try contradiction;
        (do 5 eexists; split; [reflexivity|]; split; [reflexivity|]; split; [|split; [exact G2|split; [exact EP|exact EN']]]); assumption.
Qed.
Lemma mv_born s1 s2 E1 E2 thr m av s1' F1 conv : mgood s1 s2 -> mest_rel E1 E2 ->
  born_solve e E1 thr m av s1 = (s1', Ok (F1, conv)) ->
  exists s2' F2, born_solve e E2 thr m av s2 = (s2', Ok (F2, conv)) /\ vmov3 F1 F2 /\ mgood s1' s2' /\ s_pol s1' = s_pol s1 /\ nlv s1' s2'.
Proof.
  intros G HE H. unfold born_solve in *. rewrite (m_pol _ _ (mg_rel _ _ G)).
  destruct (start_field e (pol_comp (s_pol s1)) E1 s1) as [s3 [F0|]] eqn:Q; [|discriminate].
  destruct (mv_start s1 s2 E1 E2 s3 F0 G HE Q) as (s4 & G0 & -> & HF & G' & EP).
  destruct (mv_born_loop thr m s3 s4 F0 G0 G' HF) as (s5 & s6 & r1 & r2 & l & Q1 & Q2 & O & G2 & EP2 & EN).
  assert (Hm : r1 <> None -> 0 < m) by (intro Q3; destruct m; [|lia]; cbn [born_loop] in Q1; injection Q1 as _ <- _; contradiction).
  rewrite Q1 in H. rewrite Q2. destruct r1 as [R1|]; destruct r2 as [R2|]; try contradiction; [|discriminate].
  injection H as <- <- <-. do 2 eexists. split; [reflexivity|]. split; [exact O|]. split; [exact G2|]. split; [congruence|].
  apply EN. left. apply Hm. discriminate.
Qed.
Lemma mv_residual s1 s2 E1 E2 : mov_rel s1 s2 -> vmov E1 E2 -> vmov (nl_residual s1 E1) (nl_residual s2 E2).
Proof.
  intros U HE k Hk.
  transitivity (mv (s_M s2) (nl_matrix s2 E2) E2 (f k) - rhs s2 (f k))%C; [reflexivity|].
  transitivity (mv (s_M s1) (nl_matrix s1 E1) E1 k - rhs s1 k)%C; [|reflexivity].
  rewrite (m_M1 _ _ U), (m_M2 _ _ U), (mv_rhs _ _ U k Hk). f_equal. apply moved_mv; [apply mv_nl_matrix; assumption|exact HE|exact Hk].
Qed.
Lemma mv_jac11 s1 s2 E1 E2 : mov_rel s1 s2 -> vmov E1 E2 -> moved n n' f g (nl_jac11 s1 E1) (nl_jac11 s2 E2).
Proof.
  intros U HE x k Hk.
  assert (J1 := jac11_mv s2 E2 (fun q => x (g q)) (f k)). rewrite (m_M2 _ _ U) in J1. rewrite (J1 (fk k Hk)).
  assert (J2 := jac11_mv s1 E1 x k). rewrite (m_M1 _ _ U) in J2. rewrite (J2 Hk).
  rewrite (mv_eps_nl s1 s2 E1 E2 k U HE Hk), (mv_dnl_de s1 s2 E1 E2 k U HE Hk), (HE k Hk), (m_omega _ _ U), (m_L0 _ _ U), (proj2 (proj1 HR k Hk)).
  f_equal. apply (m_A _ _ U x k Hk).
Qed.
Lemma mv_jac12 s1 s2 E1 E2 : mov_rel s1 s2 -> vmov E1 E2 -> moved n n' f g (nl_jac12 s1 E1) (nl_jac12 s2 E2).
Proof.
  intros U HE x k Hk.
  assert (J1 := jac12_mv s2 E2 (fun q => x (g q)) (f k)). rewrite (m_M2 _ _ U) in J1. rewrite (J1 (fk k Hk)).
  assert (J2 := jac12_mv s1 E1 x k). rewrite (m_M1 _ _ U) in J2. rewrite (J2 Hk).
  rewrite (mv_dnl_de s1 s2 E1 E2 k U HE Hk), (HE k Hk), (m_omega _ _ U), (m_L0 _ _ U), (proj2 (proj1 HR k Hk)). reflexivity.
Qed.
Lemma vmov_conj x1 x2 : vmov x1 x2 -> vmov (vconj x1) (vconj x2).
Proof. intros H k Hk. unfold vconj. rewrite (H k Hk). reflexivity. Qed.
Lemma mv_wl s1 s2 E1 E2 x1 x2 k : mov_rel s1 s2 -> vmov E1 E2 -> vmov x1 x2 -> k < n ->
  (mv n' (nl_jac11 s2 E2) x2 (f k) + mv n' (nl_jac12 s2 E2) (vconj x2) (f k) =
   mv n (nl_jac11 s1 E1) x1 k + mv n (nl_jac12 s1 E1) (vconj x1) k)%C.
Proof.
  intros U HE HX Hk. f_equal; apply moved_mv; try exact Hk; try exact HX; try (apply vmov_conj; exact HX).
  - apply mv_jac11; assumption.
  - apply mv_jac12; assumption.
Qed.
Lemma vmov_back {T} (x2 : nat -> T) : vmov (fun k => x2 (f k)) x2.
Proof. intros k Hk. reflexivity. Qed.
Lemma vmov_fwd {T} (x1 : nat -> T) : vmov x1 (fun q => x1 (g q)).
Proof. intros k Hk. cbv beta. rewrite (proj2 (proj1 HR k Hk)). reflexivity. Qed.
Lemma mv_widely s1 s2 E1 E2 : mgood s1 s2 -> s_pol s1 = PolEz -> vmov E1 E2 -> widely_injective n' (nl_jac11 s2 E2) (nl_jac12 s2 E2).
Proof.
  intros G Hp HE x Hx q Hq. destruct (proj2 HR q Hq) as [Hg Eg]. rewrite <- Eg.
  apply (mg_jac _ _ G Hp E1 (fun k => x (f k))); [|exact Hg]. intros k Hk.
  change (mv n (nl_jac11 s1 E1) (fun k => x (f k)) k + mv n (nl_jac12 s1 E1) (vconj (fun k => x (f k))) k = RtoC 0)%C.
  rewrite <- (mv_wl s1 s2 E1 E2 _ x k (mg_rel _ _ G) HE (vmov_back x) Hk). exact (Hx (f k) (fk k Hk)).
Qed.
Lemma mv_c2r s1 s2 E1 E2 d1 : mgood s1 s2 -> s_pol s1 = PolEz -> vmov E1 E2 ->
  solver_complex2real e n (nl_jac11 s1 E1) (nl_jac12 s1 E1) (nl_residual s1 E1) (DEFAULT_SOLVER e) = Ok d1 ->
  exists d2, solver_complex2real e n' (nl_jac11 s2 E2) (nl_jac12 s2 E2) (nl_residual s2 E2) (DEFAULT_SOLVER e) = Ok d2 /\ vmov d1 d2.
Proof.
  intros G Hp HE H. assert (RR := mv_residual s1 s2 E1 E2 (mg_rel _ _ G) HE).
  assert (Hrun: exists d2, solver_complex2real e n' (nl_jac11 s2 E2) (nl_jac12 s2 E2) (nl_residual s2 E2) (DEFAULT_SOLVER e) = Ok d2).
  { unfold solver_complex2real in *. destruct (all_zero n' (nl_residual s2 E2)) eqn:Z2; [eexists; reflexivity|].
    destruct (all_zero n (nl_residual s1 E1)) eqn:Z1.
    - exfalso. assert (Z: all_zero n' (nl_residual s2 E2) = true); [|congruence]. apply all_zero_spec. intros q Hq.
      rewrite (vmov_g _ _ RR q Hq). apply (proj1 (all_zero_spec _ _) Z1). apply HR. exact Hq.
    - destruct (DEFAULT_SOLVER e); try discriminate. destruct (e_pardiso e); [eexists; reflexivity|discriminate]. }
  destruct Hrun as [d2 H2]. exists d2. split; [exact H2|].
  assert (C1 := C28_complex2real_solves_widely_linear_system e _ _ _ _ _ Hre (mg_jac _ _ G Hp E1) _ H).
  assert (C2 := C28_complex2real_solves_widely_linear_system e _ _ _ _ _ Hre (mv_widely s1 s2 E1 E2 G Hp HE) _ H2).
  assert (S1: widely_solves n (nl_jac11 s1 E1) (nl_jac12 s1 E1) d1 (nl_residual s1 E1)) by (apply C1; intros r Hr; reflexivity).
  assert (S2: veq n' (fun q => d1 (g q)) d2).
  { apply C2. intros q Hq. destruct (proj2 HR q Hq) as [Hg Eg]. rewrite <- Eg.
    change (mv n' (nl_jac11 s2 E2) (fun q => d1 (g q)) (f (g q)) + mv n' (nl_jac12 s2 E2) (vconj (fun q => d1 (g q))) (f (g q)) = nl_residual s2 E2 (f (g q)))%C.
    rewrite (mv_wl s1 s2 E1 E2 d1 _ (g q) (mg_rel _ _ G) HE (vmov_fwd d1) Hg), (RR (g q) Hg). exact (S1 (g q) Hg). }
  intros k Hk. rewrite <- (S2 (f k) (fk k Hk)). rewrite (proj2 (proj1 HR k Hk)). reflexivity.
Qed.
Lemma mv_newton_loop thr m : forall s1 s2 E1 E2 s1' X1 l, mgood s1 s2 -> s_pol s1 = PolEz -> vmov E1 E2 ->
  newton_loop e thr m E1 s1 = (s1', Ok (X1, l)) ->
  exists s2' X2, newton_loop e thr m E2 s2 = (s2', Ok (X2, l)) /\ vmov X1 X2 /\ mgood s1' s2' /\ s_pol s1' = PolEz.
Proof.
  induction m; intros s1 s2 E1 E2 s1' X1 l G Hp HE H; cbn [newton_loop] in *.
  - injection H as <- <- <-. do 2 eexists. split; [reflexivity|]. split; [exact HE|]. split; [exact G|]. exact Hp.
  - assert (U := mg_rel _ _ G). unfold nl_eq_and_jac in *. rewrite (m_pol _ _ U), Hp in *.
    rewrite (m_size2 _ _ U), (m_size1 _ _ U), (m_M1 _ _ U), (m_M2 _ _ U), !Nat.eqb_refl in *.
    change (s_M (compute_nl E1 s1)) with (s_M s1) in *. change (s_M (compute_nl E2 s2)) with (s_M s2). rewrite (m_M1 _ _ U), ?(m_M2 _ _ U) in *.
    destruct (solver_complex2real e n (nl_jac11 s1 E1) _ _ _) as [d1|] eqn:Ed; [|discriminate].
    destruct (mv_c2r s1 s2 E1 E2 d1 G Hp HE Ed) as (d2 & -> & Hd).
    assert (HEn := vmov_minus _ _ _ _ HE Hd).
    rewrite (vmov_convergence _ _ _ _ HEn HE).
    assert (G' := mgood_compute s1 s2 E1 E2 G HE).
    destruct (xlt _ thr).
    + injection H as <- <- <-. do 2 eexists. split; [reflexivity|]. split; [exact HEn|]. split; [exact G'|]. exact Hp.
    + destruct (newton_loop e thr m (vminus E1 d1) (compute_nl E1 s1)) as [s3 [[Y l3]|]] eqn:Q; [|discriminate].
      injection H as <- <- <-.
      destruct (IHm (compute_nl E1 s1) (compute_nl E2 s2) _ _ _ _ _ G' Hp HEn Q) as (s4 & Y2 & -> & HY & G2 & EP).
      do 2 eexists. split; [reflexivity|]. split; [exact HY|]. split; [exact G2|]. assumption.
Qed.
Lemma mv_newton s1 s2 E1 E2 thr m av s1' F1 conv : mgood s1 s2 -> mest_rel E1 E2 ->
  newton_solve e E1 thr m av s1 = (s1', Ok (F1, conv)) ->
  exists s2' F2, newton_solve e E2 thr m av s2 = (s2', Ok (F2, conv)) /\ vmov3 F1 F2 /\ mgood s1' s2' /\ s_pol s1' = s_pol s1 /\ nlv s1' s2'.
Proof.
  intros G HE H. unfold newton_solve in *. rewrite (m_pol _ _ (mg_rel _ _ G)). destruct (s_pol s1) eqn:Hp; [|discriminate].
  assert (Hst := mv_start s1 s2 E1 E2). rewrite Hp in Hst. cbn [pol_comp] in Hst.
  destruct (start_field e Ez E1 s1) as [s3 [F0|]] eqn:Q; [|discriminate].
  destruct (Hst s3 F0 G HE eq_refl) as (s4 & G0 & -> & HF & G' & EP).
  destruct (newton_loop e thr m F0 s3) as [s5 [[E l]|]] eqn:Q1; [|discriminate].
  destruct (mv_newton_loop thr m s3 s4 F0 G0 s5 E l G' EP HF Q1) as (s6 & Y & -> & HY & G2 & EP2).
  destruct (mv_solve_nl e s5 s6 E Y (mg_rel _ _ G2) He HY (mg_nl _ _ G2 E)) as (R1 & R2 & E5 & E6 & T).
  rewrite E5 in H. rewrite E6. destruct m; [discriminate|]. injection H as <- <- <-.
  do 2 eexists. split; [reflexivity|]. split; [exact T|]. split; [apply mgood_compute; assumption|]. split; [exact EP2|]. apply nlv_compute; assumption.
Qed.
Lemma mv_run_solver s1 s2 E1 E2 name thr m av s1' F1 conv : mgood s1 s2 -> mest_rel E1 E2 ->
  name = "born"%string \/ name = "newton"%string \/ name = "hybrid"%string ->
  run_solver_nl e av E1 name thr m s1 = (s1', Ok (F1, conv)) ->
  exists s2' F2, run_solver_nl e av E2 name thr m s2 = (s2', Ok (F2, conv)) /\ vmov3 F1 F2 /\ mgood s1' s2' /\ s_pol s1' = s_pol s1 /\ nlv s1' s2'.
Proof.
  intros G HE [-> | [-> | ->]] H; unfold run_solver_nl in *.
  - rewrite String.eqb_refl in *. eapply mv_born; eassumption.
  - change (String.eqb "newton" "born") with false in *. rewrite String.eqb_refl in *. cbv iota in *. eapply mv_newton; eassumption.
  - change (String.eqb "hybrid" "born") with false in *. change (String.eqb "hybrid" "newton") with false in *.
    change (String.eqb "hybrid" "LM") with false in *. change (String.eqb "hybrid" "krylov") with false in *.
    rewrite String.eqb_refl in *. cbv iota in *.
    destruct (born_solve e E1 thr 20 av s1) as [s3 [[F3 c3]|]] eqn:Q; [|discriminate].
    destruct (mv_born s1 s2 E1 E2 thr 20 av s3 F3 c3 G HE Q) as (s4 & F4 & -> & T & G2 & EP & EN).
    destruct (last_conv c3) as [c|]; [|discriminate]. destruct (xgt c _).
    + assert (HE2: mest_rel (Some (snd F3)) (Some (snd F4))) by apply T.
      destruct (mv_newton s3 s4 _ _ thr 20 av s1' F1 conv G2 HE2 H) as (s6 & F6 & -> & T6 & G6 & EP6 & EN6).
      do 2 eexists. split; [reflexivity|]. split; [exact T6|]. split; [exact G6|]. split; [congruence|exact EN6].
    + injection H as <- <- <-. do 2 eexists. split; [reflexivity|]. split; [exact T|]. split; [exact G2|]. split; assumption.
Qed.
Lemma mv_solve_fields_nl s1 s2 E1 E2 name thr m av s1' F1 conv : mgood s1 s2 -> mest_rel E1 E2 ->
  name = "born"%string \/ name = "newton"%string \/ name = "hybrid"%string ->
  solve_fields_nl e av E1 name thr m s1 = (s1', Ok (F1, conv)) ->
  exists s2' F2, solve_fields_nl e av E2 name thr m s2 = (s2', Ok (F2, conv)) /\ vmov3 F1 F2 /\ mgood s1' s2' /\ nlv s1' s2'.
Proof.
  intros G HE Hn H. unfold solve_fields_nl in *.
  destruct (run_solver_nl e av E1 name thr m s1) as [s3 [[F3 c3]|]] eqn:Q; [|discriminate]. injection H as <- <- <-.
  destruct (mv_run_solver s1 s2 E1 E2 name thr m av s3 F3 c3 G HE Hn Q) as (s4 & F4 & -> & T & G2 & EP & EN).
  do 2 eexists. split; [reflexivity|]. split; [exact T|]. split; [|exact EN].
  destruct G2 as [H1 H2 H4 H5 H6]. constructor; try assumption. apply mv_upd_fields_nl; assumption.
Qed.
Lemma mv_index_shift s1 s2 s1' v1 : mgood s1 s2 -> compute_index_shift e s1 = (s1', Ok v1) ->
  exists s2' v2, compute_index_shift e s2 = (s2', Ok v2) /\ vmov v1 v2.
Proof.
  intros G H. unfold compute_index_shift, bind in *.
  destruct (solve_fields e false false s1) as [s3 [F|]] eqn:Q; [|discriminate].
  destruct (mgood_lin s1 s2 s3 F G Q) as (s4 & F4 & -> & T & G3 & EP). unfold solve_fields_nl_default in *.
  destruct (solve_fields_nl e false None "hybrid" (1 / 10 ^ 10) 50 s3) as [s5 [[F5 c5]|]] eqn:Q5; [|discriminate].
  destruct (mv_solve_fields_nl s3 s4 None None "hybrid" (1 / 10 ^ 10) 50 false s5 F5 c5 G3 I ltac:(auto) Q5) as (s6 & F6 & -> & T6 & G6 & EN).
  unfold getS, ret in *. injection H as <- <-. do 2 eexists. split; [reflexivity|].
  intros k Hk. cbv beta. rewrite (m_eps _ _ (mg_rel _ _ G6) k Hk). rewrite (nlv_eps _ _ (mg_rel _ _ G6) EN k Hk). reflexivity.
Qed.
Lemma mv_solutions s1 s2 X1 X2 : mov_rel s1 s2 -> vmov X1 X2 -> (nonlinear_solution s2 X2 <-> nonlinear_solution s1 X1).
Proof.
  intros U HX. rewrite !residual_zero. rewrite (m_M1 _ _ U), (m_M2 _ _ U). assert (RR := mv_residual s1 s2 X1 X2 U HX). split; intros H k Hk.
  - rewrite <- (RR k Hk). apply H. apply fk, Hk.
  - rewrite (vmov_g _ _ RR k Hk). apply H. apply HR, Hk.
Qed.
End Moved.
