(** C100: only the product of nonlinearity and power matters; the global phase of the source only
    rotates the fields. *)
From Coq Require Import Reals Lra Lia List ZArith Arith Bool String.
From Coquelicot Require Import Coquelicot.
From Verif Require Import Base Linear MCore MSim Spec PCore PSim PEx PropsCore PropsSolve PropsNl PropsIter PSym PropsUnit PropsLin PDiff PImpl PWeak.
Import ListNotations.
Local Open Scope nat_scope.

(** ** The specification *)

(** the Kerr nonlinearity divided by a real number *)
Definition weaker (p : R) (q : nonlin) : nonlin := mkNonlin (nl_chi q / p) (nl_region q) (nl_eps_scale q) (nl_eps_max q).
(** [s2] is [s1] with the source multiplied by the complex number [c] and every chi3 divided by |c|^2 *)
Definition rescaled (c : C) (s1 s2 : sim) : Prop :=
  s2 = upd_nl (List.map (weaker (Cmod c ^ 2)) (s_nl s1)) (upd_src (mkNd (nd_nx (s_src s1)) (nd_ny (s_src s1)) (fun r => (c * nd_buf (s_src s1) r)%C)) s1).

(** ** Two such simulations *)
Record pow_rel (c : C) (s1 s2 : sim) : Prop := {
  p_omega : s_omega s2 = s_omega s1;
  p_pol : s_pol s2 = s_pol s1;
  p_L0 : s_L0 s2 = s_L0 s1;
  p_Nx : s_Nx s2 = s_Nx s1;
  p_Ny : s_Ny s2 = s_Ny s1;
  p_A : s_A s2 = s_A s1;
  p_D : s_derivs s2 = s_derivs s1;
  p_eps : s_eps s2 = s_eps s1;
  p_nl : forall r x, (kerr_coef (s_nl s2) r x * Cnorm2 c = kerr_coef (s_nl s1) r x)%R;
  p_size : nd_size (s_src s2) = nd_size (s_src s1);
  p_src : forall r, (r < s_M s1)%nat -> nd_buf (s_src s2) r = (c * nd_buf (s_src s1) r)%C }.
(** [v2] is [v1] multiplied by [c] *)
Definition ctimes (c : C) (n : nat) (v1 v2 : vec) : Prop := forall r, (r < n)%nat -> v2 r = (c * v1 r)%C.
Definition ctimes3 c n (F1 F2 : vec * vec * vec) : Prop :=
  ctimes c n (fst (fst F1)) (fst (fst F2)) /\ ctimes c n (snd (fst F1)) (snd (fst F2)) /\ ctimes c n (snd F1) (snd F2).

Lemma pw_M k s1 s2 : pow_rel k s1 s2 -> s_M s2 = s_M s1.
Proof. intro H. unfold s_M. rewrite (p_Nx _ _ _ H), (p_Ny _ _ _ H). reflexivity. Qed.
Lemma pw_compute_nl k s1 s2 F1 F2 : pow_rel k s1 s2 -> pow_rel k (compute_nl F1 s1) (compute_nl F2 s2).
Proof. intros []. constructor; assumption. Qed.
Lemma pw_upd_fields k s1 s2 F1 F2 : pow_rel k s1 s2 -> pow_rel k (upd_fields F1 s1) (upd_fields F2 s2).
Proof. intros []. constructor; assumption. Qed.
Lemma pw_upd_fields_nl k s1 s2 F1 F2 : pow_rel k s1 s2 -> pow_rel k (upd_fields_nl F1 s1) (upd_fields_nl F2 s2).
Proof. intros []. constructor; assumption. Qed.
Lemma pw_eps_nl k s1 s2 F1 F2 r : k <> RtoC 0 -> pow_rel k s1 s2 -> ctimes k (s_M s1) F1 F2 -> (r < s_M s1)%nat ->
  s_eps_nl (compute_nl F2 s2) r = s_eps_nl (compute_nl F1 s1) r.
Proof.
  intros Hk H HF Hr. cbn [compute_nl upd_nlvals s_eps_nl]. rewrite !sum_eps_nl_coef, (p_eps _ _ _ H), (HF r Hr), Cnorm2_mult.
  rewrite <- (p_nl _ _ _ H). ring.
Qed.
Lemma pw_dnl_de k s1 s2 F1 F2 r : k <> RtoC 0 -> pow_rel k s1 s2 -> ctimes k (s_M s1) F1 F2 -> (r < s_M s1)%nat ->
  (k * s_dnl_de (compute_nl F2 s2) r = s_dnl_de (compute_nl F1 s1) r)%C.
Proof.
  intros Hk H HF Hr. cbn [compute_nl upd_nlvals s_dnl_de]. rewrite !sum_dnl_de_coef, (p_eps _ _ _ H), (HF r Hr), Cconj_mult.
  rewrite <- (p_nl _ _ _ H), RtoC_mult, <- (Cmult_conj_r k). ring.
Qed.
Lemma pw_nl_matrix k s1 s2 F1 F2 x r : k <> RtoC 0 -> pow_rel k s1 s2 -> ctimes k (s_M s1) F1 F2 -> (r < s_M s1)%nat ->
  mv (s_M s1) (nl_matrix s2 F2) x r = mv (s_M s1) (nl_matrix s1 F1) x r.
Proof.
  intros Hk H HF Hr. unfold nl_matrix. rewrite !mv_mplus, !mv_diag by assumption. rewrite (p_A _ _ _ H).
  rewrite (pw_eps_nl k s1 s2 F1 F2 r Hk H HF Hr), (p_omega _ _ _ H), (p_L0 _ _ _ H). reflexivity.
Qed.
Lemma pw_rhs k s1 s2 r : pow_rel k s1 s2 -> (r < s_M s1)%nat -> rhs s2 r = (k * rhs s1 r)%C.
Proof. intros H Hr. unfold rhs. rewrite (p_src _ _ _ H) by assumption. rewrite (p_omega _ _ _ H). ring. Qed.
Lemma same_nonsingular n A1 A2 : (forall x r, (r < n)%nat -> mv n A2 x r = mv n A1 x r) -> nonsingular n A1 -> nonsingular n A2.
Proof.
  intros HA HN. apply injective_nonsingular. intros x Hx. apply (nonsingular_injective n A1 x HN). intros r Hr. rewrite <- HA by exact Hr. exact (Hx r Hr).
Qed.
Lemma ctimes_solution k n A1 A2 b1 b2 x1 x2 : (forall x r, (r < n)%nat -> mv n A2 x r = mv n A1 x r) -> nonsingular n A1 ->
  (forall r, (r < n)%nat -> b2 r = (k * b1 r)%C) -> solves n A1 x1 b1 -> solves n A2 x2 b2 -> ctimes k n x1 x2.
Proof.
  intros HA HN Hb H1 H2. assert (HN2 := same_nonsingular n A1 A2 HA HN).
  apply (solves_unique n A2 x2 (fun r => k * x1 r)%C b2 HN2 H2). apply solves_mv. intros r Hr. rewrite HA, Hb by assumption.
  rewrite (mv_ext_v n A1 (fun r => k * x1 r)%C (vscal k x1)) by (intros c Hc; reflexivity).
  rewrite mv_vscal. assert (Q := H1 r Hr). change (mv n A1 x1 r = b1 r) in Q. rewrite Q. reflexivity.
Qed.
Lemma eps_dir_same w av L0 Nx Ny eps1 eps2 r : (r < Nx * Ny)%nat -> (forall q, (q < Nx * Ny)%nat -> eps2 q = eps1 q) ->
  eps_dir w av L0 Nx Ny eps2 r = eps_dir w av L0 Nx Ny eps1 r.
Proof.
  intros Hr H. assert (Q := eps_dir_unit w av 1 L0 Nx Ny eps1 eps2 r Hr H). rewrite Rmult_1_l, Cmult_1_l in Q. exact Q.
Qed.
Lemma pw_derived k s1 s2 eps1 eps2 av X1 X2 : pow_rel k s1 s2 ->
  (forall q, (q < s_M s1)%nat -> eps2 q = eps1 q) -> ctimes k (s_M s1) X1 X2 ->
  ctimes k (s_M s1) (fst (derived_fields s1 eps1 av X1)) (fst (derived_fields s2 eps2 av X2)) /\
  ctimes k (s_M s1) (snd (derived_fields s1 eps1 av X1)) (snd (derived_fields s2 eps2 av X2)).
Proof.
  intros H He HX. unfold derived_fields. rewrite (p_pol _ _ _ H), (p_omega _ _ _ H), (p_L0 _ _ _ H), (p_Nx _ _ _ H), (p_Ny _ _ _ H), (pw_M _ _ _ H), (p_D _ _ _ H).
  assert (HX': forall r, (r < s_M s1)%nat -> X2 r = vscal k X1 r) by exact HX.
  assert (ED : forall D r, (r < s_M s1)%nat -> mv (s_M s1) D X2 r = (k * mv (s_M s1) D X1 r)%C).
  { intros D r Hr. rewrite (mv_ext_v _ _ _ _ r HX'), mv_vscal. reflexivity. }
  destruct (s_pol s1); cbn [fst snd].
  - split; intros r Hr; unfold vscal; rewrite ED by assumption; ring.
  - unfold spdiags. split; intros r Hr; unfold vscal; rewrite !mv_mm, !mv_diag by assumption; rewrite ED by assumption;
      rewrite (eps_dir_same _ av (s_L0 s1) (s_Nx s1) (s_Ny s1) eps1 eps2 r Hr He); ring.
Qed.
(** one linear solve *)
Lemma pw_solve_lin k e av s1 s2 s1' F1 : k <> RtoC 0 -> pow_rel k s1 s2 -> solver_exact e ->
  nonsingular (s_M s1) (s_A s1) -> solve_fields e false av s1 = (s1', Ok F1) ->
  exists s2' F2, solve_fields e false av s2 = (s2', Ok F2) /\ ctimes3 k (s_M s1) F1 F2 /\ pow_rel k s1' s2' /\
    s_fields s1' (pol_comp (s_pol s1)) = Some (snd F1) /\ s_fields s2' (pol_comp (s_pol s1)) = Some (snd F2).
Proof.
  intros Hk H He HA H1. destruct F1 as [[a1 b1] X1].
  assert (HS1 := solve_fields_ok _ _ _ _ _ _ _ _ H1). destruct HS1 as (Hsz & HX1 & HD1 & _). cbn [used_matrix used_eps] in HX1, HD1.
  destruct (solve_fields_lin e av s2) as [X2 [HX2 H2]]; [rewrite (p_size _ _ _ H), (pw_M _ _ _ H); exact Hsz|].
  destruct (solve_fields_lin e av s1 Hsz) as [X1' [HX1' H1']].
  rewrite H1' in H1. cbv zeta in H1. injection H1 as <- Ea Eb EX. cbv zeta in H2.
  rewrite EX in *.
  rewrite (pw_M _ _ _ H) in HX2.
  assert (HA2: nonsingular (s_M s1) (s_A s2)) by (rewrite (p_A _ _ _ H); exact HA).
  assert (S1 := solver_direct_correct _ _ _ _ _ _ He HA HX1).
  assert (S2 := solver_direct_correct _ _ _ _ _ _ He HA2 HX2).
  assert (HT: ctimes k (s_M s1) X1 X2).
  { apply (ctimes_solution k _ (s_A s1) (s_A s2) (rhs s1) (rhs s2)); try assumption; [rewrite (p_A _ _ _ H); reflexivity|].
    intros r Hr. apply pw_rhs; assumption. }
  destruct (pw_derived k s1 s2 (s_epsC s1) (s_epsC s2) av X1 X2 H) as [Da Db]; [|assumption|].
  { intros q _. unfold s_epsC, cvec. rewrite (p_eps _ _ _ H). reflexivity. }
  do 2 eexists. split; [exact H2|]. split; [|split; [apply pw_upd_fields; assumption|]].
  - unfold ctimes3. cbn [fst snd]. rewrite <- Ea, <- Eb. auto.
  - cbn [upd_fields s_fields fst snd]. rewrite (p_pol _ _ _ H). unfold store3.
    split; unfold fset; destruct (s_pol s1); reflexivity.
Qed.
(** one solve with the nonlinear permittivity of a given field *)
Lemma pw_solve_nl k e s1 s2 F1 F2 : k <> RtoC 0 -> pow_rel k s1 s2 -> solver_exact e -> ctimes k (s_M s1) F1 F2 ->
  nonsingular (s_M s1) (nl_matrix s1 F1) -> nd_size (s_src s1) = s_M s1 ->
  exists G1 G2, solve_fields e true false (compute_nl F1 s1) = (compute_nl F1 s1, Ok G1) /\
    solve_fields e true false (compute_nl F2 s2) = (compute_nl F2 s2, Ok G2) /\ ctimes3 k (s_M s1) G1 G2.
Proof.
  intros Hk H He HF HA Hsz.
  destruct (solve_nl_ok e false F1 s1 Hsz) as (a1 & b1 & X1 & H1 & HX1).
  destruct (solve_nl_ok e false F2 s2) as (a2 & b2 & X2 & H2 & HX2); [rewrite (p_size _ _ _ H), (pw_M _ _ _ H); exact Hsz|].
  exists (a1, b1, X1), (a2, b2, X2). split; [exact H1|]. split; [exact H2|].
  rewrite (pw_M _ _ _ H) in HX2.
  assert (HU: forall x r, (r < s_M s1)%nat -> mv (s_M s1) (nl_matrix s2 F2) x r = mv (s_M s1) (nl_matrix s1 F1) x r).
  { intros; apply (pw_nl_matrix k); assumption. }
  assert (HA2 := same_nonsingular _ _ _ HU HA).
  assert (S1 := solver_direct_correct _ _ _ _ _ _ He HA HX1).
  assert (S2 := solver_direct_correct _ _ _ _ _ _ He HA2 HX2).
  assert (HT: ctimes k (s_M s1) X1 X2).
  { apply (ctimes_solution k _ (nl_matrix s1 F1) (nl_matrix s2 F2) (rhs s1) (rhs s2)); try assumption.
    intros r Hr. apply pw_rhs; assumption. }
  apply solve_fields_ok in H1 as (_ & _ & D1 & _). apply solve_fields_ok in H2 as (_ & _ & D2 & _). cbn [used_eps] in D1, D2.
  destruct (pw_derived k (compute_nl F1 s1) (compute_nl F2 s2) (fun k0 : nat => (s_epsC (compute_nl F1 s1) k0 + RtoC (s_eps_nl (compute_nl F1 s1) k0))%C)
    (fun k0 : nat => (s_epsC (compute_nl F2 s2) k0 + RtoC (s_eps_nl (compute_nl F2 s2) k0))%C) false X1 X2 (pw_compute_nl _ _ _ _ _ H)) as [Da Db]; [|exact HT|].
  { intros q Hq. rewrite (pw_eps_nl k s1 s2 F1 F2 q Hk H HF Hq). f_equal.
    unfold s_epsC, cvec. cbn [compute_nl upd_nlvals s_eps]. rewrite (p_eps _ _ _ H). reflexivity. }
  rewrite <- D1, <- D2 in Da, Db. unfold ctimes3. cbn [fst snd] in *. auto.
Qed.
Lemma ctimes_minus k n F1 F2 G1 G2 : ctimes k n F1 F2 -> ctimes k n G1 G2 -> ctimes k n (vminus F1 G1) (vminus F2 G2).
Proof. intros HF HG r Hr. unfold vminus. rewrite (HF r Hr), (HG r Hr). ring. Qed.
Lemma ctimes_nrm k n F1 F2 : ctimes k n F1 F2 -> nrm n F2 = (Cmod k * nrm n F1)%R.
Proof.
  intros H. unfold nrm. rewrite (rsum_ext n _ (fun r => (Cnorm2 k * Cnorm2 (F1 r))%R)) by (intros r Hr; rewrite (H r Hr); apply Cnorm2_mult).
  rewrite rsum_scal. assert (P := Cmod_ge_0 k). rewrite <- Cmod_sq. rewrite sqrt_mult_alt by apply pow2_ge_0. rewrite sqrt_pow2 by exact P. reflexivity.
Qed.
Lemma ctimes_convergence k n F1 F2 G1 G2 : k <> RtoC 0 -> ctimes k n F1 F2 -> ctimes k n G1 G2 -> convergence n F2 G2 = convergence n F1 G1.
Proof.
  intros Hk HF HG. set (F3 := (fun r => RtoC (Cmod k) * F1 r)%C). set (G3 := (fun r => RtoC (Cmod k) * G1 r)%C).
  assert (HP : (0 < Cmod k)%R) by (apply Cmod_gt_0; exact Hk).
  rewrite <- (times_convergence (Cmod k) n F1 F3 G1 G3 HP) by (intros r _; reflexivity).
  unfold convergence. rewrite (ctimes_nrm k n F1 F2 HF), (ctimes_nrm k n _ _ (ctimes_minus k n _ _ _ _ HF HG)).
  rewrite (times_nrm (Cmod k) n F1 F3 HP), (times_nrm (Cmod k) n (vminus F1 G1) (vminus F3 G3) HP); [reflexivity| |]; intros r _; unfold vminus, F3, G3; ring.
Qed.
(* ------------------------------------------------------------------ *)
(** ** the nonlinear solvers *)
Definition pest_rel (k : C) (n : nat) (E1 E2 : option vec) : Prop :=
  match E1, E2 with None, None => True | Some F1, Some F2 => ctimes k n F1 F2 | _, _ => False end.
Record pgood (k : C) (s1 s2 : sim) : Prop := {
  pg_rel : pow_rel k s1 s2;
  pg_fields : pest_rel k (s_M s1) (s_fields s1 (pol_comp (s_pol s1))) (s_fields s2 (pol_comp (s_pol s1)));
  pg_size : nd_size (s_src s1) = s_M s1;
  pg_A : nonsingular (s_M s1) (s_A s1);
  pg_nl : forall F, nonsingular (s_M s1) (nl_matrix s1 F);
  pg_jac : s_pol s1 = PolEz -> forall E, widely_injective (s_M s1) (nl_jac11 s1 E) (nl_jac12 s1 E);
  pg_eps_nl : forall r, (r < s_M s1)%nat -> s_eps_nl s2 r = s_eps_nl s1 r }.
Lemma pgood_compute k s1 s2 F1 F2 : k <> RtoC 0 -> pgood k s1 s2 -> ctimes k (s_M s1) F1 F2 -> pgood k (compute_nl F1 s1) (compute_nl F2 s2).
Proof.
  intros Hk [H1 H2 H3 H4 H5 H6 H7] HF. constructor; try assumption.
  - apply pw_compute_nl; assumption.
  - intros r Hr. apply (pw_eps_nl k); assumption.
Qed.
Section Solvers.
Variables (k : C) (e : env).
Hypothesis (Hk : k <> RtoC 0) (He : solver_exact e) (Hre : real_solver_exact e).
Lemma pw_start s1 s2 E1 E2 s1' F1 : pgood k s1 s2 -> pest_rel k (s_M s1) E1 E2 ->
  start_field e (pol_comp (s_pol s1)) E1 s1 = (s1', Ok F1) ->
  exists s2' F2, start_field e (pol_comp (s_pol s1)) E2 s2 = (s2', Ok F2) /\ ctimes k (s_M s1) F1 F2 /\ pgood k s1' s2' /\
    s_M s1' = s_M s1 /\ s_pol s1' = s_pol s1.
Proof.
  intros G HE H. unfold start_field in *. destruct E1 as [E1|]; destruct E2 as [E2|]; try contradiction.
  - injection H as <- <-. do 2 eexists. split; [reflexivity|]. split; [assumption|]. split; [exact G|]. split; reflexivity.
  - assert (HF := pg_fields _ _ _ G). destruct (s_fields s1 _) as [G1|] eqn:Q1; destruct (s_fields s2 _) as [G2|]; try contradiction.
    + injection H as <- <-. do 2 eexists. split; [reflexivity|]. split; [assumption|]. split; [exact G|]. split; reflexivity.
    + destruct (solve_fields e false false s1) as [s3 [[[a b] X]|]] eqn:E; [|discriminate]. injection H as <- <-.
      destruct (pw_solve_lin k e false s1 s2 s3 (a, b, X) Hk (pg_rel _ _ _ G) He (pg_A _ _ _ G) E) as (s2' & [[a2 b2] X2] & E2 & T & U & FF1 & FF2).
      rewrite E2. exists s2', X2. cbn [snd] in *.
      assert (HT: ctimes k (s_M s1) X X2) by apply T.
      destruct (solve_fields_lin e false s1 (pg_size _ _ _ G)) as (X1' & _ & Q). cbv zeta in Q. rewrite Q in E. injection E as <- _ _ _.
      split; [reflexivity|]. split; [exact HT|]. split; [|split; reflexivity].
      destruct G as [H1 H2 H3 H4 H5 H6 H7]. 
      destruct (solve_fields_lin e false s2) as (X2' & _ & Q2); [rewrite (p_size _ _ _ H1), (pw_M _ _ _ H1); assumption|].
      cbv zeta in Q2. rewrite Q2 in E2. injection E2 as <- _ _ _.
      constructor; try assumption. change (s_pol (upd_fields _ s1)) with (s_pol s1). rewrite FF1, FF2. exact HT.
Qed.
Definition porel (n : nat) (r1 r2 : option (vec * vec * vec)) : Prop :=
  match r1, r2 with None, None => True | Some F1, Some F2 => ctimes3 k n F1 F2 | _, _ => False end.
Lemma pw_born_loop thr n : forall s1 s2 F1 F2, pgood k s1 s2 -> ctimes k (s_M s1) F1 F2 ->
  exists s1' s2' r1 r2 l, born_loop e thr n F1 s1 = (s1', Ok (r1, l)) /\ born_loop e thr n F2 s2 = (s2', Ok (r2, l)) /\
    porel (s_M s1) r1 r2 /\ pgood k s1' s2' /\ s_M s1' = s_M s1 /\ s_pol s1' = s_pol s1.
Proof.
  induction n; intros s1 s2 F1 F2 G HF; cbn [born_loop].
  - do 5 eexists. split; [reflexivity|]. split; [reflexivity|]. split; [exact I|]. split; [exact G|]. split; reflexivity.
  - destruct (pw_solve_nl k e s1 s2 F1 F2 Hk (pg_rel _ _ _ G) He HF (pg_nl _ _ _ G F1) (pg_size _ _ _ G)) as ([[a1 b1] X1] & [[a2 b2] X2] & E1 & E2 & T).
    rewrite E1, E2. assert (HX: ctimes k (s_M s1) X1 X2) by apply T.
    change (s_M (compute_nl F1 s1)) with (s_M s1). change (s_M (compute_nl F2 s2)) with (s_M s2). rewrite (pw_M _ _ _ (pg_rel _ _ _ G)).
    rewrite (ctimes_convergence k _ X1 X2 F1 F2 Hk HX HF).
    assert (G' := pgood_compute k s1 s2 F1 F2 Hk G HF).
    destruct (xlt _ thr).
    + do 5 eexists. split; [reflexivity|]. split; [reflexivity|]. split; [exact T|]. split; [exact G'|]. split; reflexivity.
    + destruct (IHn (compute_nl F1 s1) (compute_nl F2 s2) X1 X2 G' HX) as (s1' & s2' & r1 & r2 & l & -> & -> & O & G2 & EM & EP).
      destruct r1 as [R1|]; destruct r2 as [R2|]; try contradiction;
        (do 5 eexists; split; [reflexivity|]; split; [reflexivity|]; split; [|split; [exact G2|split; [exact EM|exact EP]]]); assumption.
Qed.
Lemma pw_born s1 s2 E1 E2 thr n av s1' F1 conv : pgood k s1 s2 -> pest_rel k (s_M s1) E1 E2 ->
  born_solve e E1 thr n av s1 = (s1', Ok (F1, conv)) ->
  exists s2' F2, born_solve e E2 thr n av s2 = (s2', Ok (F2, conv)) /\ ctimes3 k (s_M s1) F1 F2 /\ pgood k s1' s2' /\
    s_M s1' = s_M s1 /\ s_pol s1' = s_pol s1.
Proof.
  intros G HE H. unfold born_solve in *. rewrite (p_pol _ _ _ (pg_rel _ _ _ G)).
  destruct (start_field e (pol_comp (s_pol s1)) E1 s1) as [s3 [F0|]] eqn:Q; [|discriminate].
  destruct (pw_start s1 s2 E1 E2 s3 F0 G HE Q) as (s4 & G0 & -> & HF & G' & EM & EP).
  destruct (pw_born_loop thr n s3 s4 F0 G0 G') as (s5 & s6 & r1 & r2 & l & Q1 & Q2 & O & G2 & EM2 & EP2); [rewrite EM; exact HF|].
  rewrite Q1 in H. rewrite Q2. destruct r1 as [R1|]; destruct r2 as [R2|]; try contradiction; [|discriminate].
  injection H as <- <- <-. do 2 eexists. split; [reflexivity|]. rewrite EM in O. split; [exact O|]. split; [exact G2|].
  split; congruence.
Qed.
Lemma pw_residual s1 s2 E1 E2 r : pgood k s1 s2 -> ctimes k (s_M s1) E1 E2 -> (r < s_M s1)%nat ->
  nl_residual s2 E2 r = (k * nl_residual s1 E1 r)%C.
Proof.
  intros G HE Hr. assert (U := pg_rel _ _ _ G).
  transitivity (mv (s_M s2) (nl_matrix s2 E2) E2 r - rhs s2 r)%C; [reflexivity|].
  transitivity (k * (mv (s_M s1) (nl_matrix s1 E1) E1 r - rhs s1 r))%C; [|reflexivity].
  rewrite (pw_M _ _ _ U), (pw_nl_matrix k s1 s2 E1 E2 E2 r Hk U HE Hr), (pw_rhs k s1 s2 r U Hr).
  assert (HE': forall r, (r < s_M s1)%nat -> E2 r = vscal k E1 r) by exact HE.
  rewrite (mv_ext_v _ _ _ _ r HE'), mv_vscal. ring.
Qed.
Lemma pw_jac s1 s2 E1 E2 x r : pgood k s1 s2 -> ctimes k (s_M s1) E1 E2 -> (r < s_M s1)%nat ->
  mv (s_M s1) (nl_jac11 s2 E2) x r = mv (s_M s1) (nl_jac11 s1 E1) x r /\
  (Cconj k * mv (s_M s1) (nl_jac12 s2 E2) x r = k * mv (s_M s1) (nl_jac12 s1 E1) x r)%C.
Proof.
  intros G HE Hr. assert (U := pg_rel _ _ _ G).
  assert (J1 := jac11_mv s2 E2 x r). assert (J2 := jac12_mv s2 E2 x r). rewrite (pw_M _ _ _ U) in J1, J2.
  rewrite (J1 Hr), (J2 Hr), (jac11_mv s1 E1 x r Hr), (jac12_mv s1 E1 x r Hr).
  assert (D := pw_dnl_de k s1 s2 E1 E2 r Hk U HE Hr).
  assert (D' : (Cconj k * Cconj (s_dnl_de (compute_nl E2 s2) r) = Cconj (s_dnl_de (compute_nl E1 s1) r))%C) by (rewrite <- Cconj_mult, D; reflexivity).
  rewrite (pw_eps_nl k s1 s2 E1 E2 r Hk U HE Hr), (HE r Hr), (p_omega _ _ _ U), (p_L0 _ _ _ U), (p_A _ _ _ U).
  rewrite <- D', <- D. split; ring.
Qed.

Lemma pw_wl s1 s2 E1 E2 x r : pgood k s1 s2 -> ctimes k (s_M s1) E1 E2 -> (r < s_M s1)%nat ->
  (mv (s_M s1) (nl_jac11 s2 E2) (vscal k x) r + mv (s_M s1) (nl_jac12 s2 E2) (vconj (vscal k x)) r =
   k * (mv (s_M s1) (nl_jac11 s1 E1) x r + mv (s_M s1) (nl_jac12 s1 E1) (vconj x) r))%C.
Proof.
  intros G HE Hr. destruct (pw_jac s1 s2 E1 E2 (vscal k x) r G HE Hr) as [J1 _]. destruct (pw_jac s1 s2 E1 E2 (vconj x) r G HE Hr) as [_ J2].
  rewrite J1. rewrite (mv_ext_v _ (nl_jac12 s2 E2) (vconj (vscal k x)) (vscal (Cconj k) (vconj x))) by (intros c Hc; unfold vconj, vscal; apply Cconj_mult).
  rewrite !mv_vscal, J2. ring.
Qed.
Lemma pw_widely s1 s2 E1 E2 : pgood k s1 s2 -> s_pol s1 = PolEz -> ctimes k (s_M s1) E1 E2 ->
  widely_injective (s_M s1) (nl_jac11 s2 E2) (nl_jac12 s2 E2).
Proof.
  intros G Hp HE x Hx. set (y := vscal (/ k)%C x). assert (Ey : forall r, (r < s_M s1)%nat -> x r = vscal k y r) by (intros r _; unfold y, vscal; field; exact Hk).
  assert (Hy : forall r, (r < s_M s1)%nat -> y r = RtoC 0).
  { apply (pg_jac _ _ _ G Hp E1). intros r Hr. specialize (Hx r Hr).
    change (mv (s_M s1) (nl_jac11 s2 E2) x r + mv (s_M s1) (nl_jac12 s2 E2) (vconj x) r = RtoC 0)%C in Hx.
    change (mv (s_M s1) (nl_jac11 s1 E1) y r + mv (s_M s1) (nl_jac12 s1 E1) (vconj y) r = RtoC 0)%C.
    rewrite (mv_ext_v _ _ _ _ r Ey) in Hx. rewrite (mv_ext_v _ (nl_jac12 s2 E2) (vconj x) (vconj (vscal k y))) in Hx by (intros c Hc; unfold vconj; f_equal; apply Ey, Hc).
    rewrite (pw_wl s1 s2 E1 E2 y r G HE Hr) in Hx. apply Cmult_integral in Hx as [Hx|Hx]; [contradiction|exact Hx]. }
  intros r Hr. rewrite (Ey r Hr). unfold vscal. rewrite (Hy r Hr). ring.
Qed.
Lemma pw_c2r s1 s2 E1 E2 d1 : pgood k s1 s2 -> s_pol s1 = PolEz -> ctimes k (s_M s1) E1 E2 ->
  solver_complex2real e (s_M s1) (nl_jac11 s1 E1) (nl_jac12 s1 E1) (nl_residual s1 E1) (DEFAULT_SOLVER e) = Ok d1 ->
  exists d2, solver_complex2real e (s_M s1) (nl_jac11 s2 E2) (nl_jac12 s2 E2) (nl_residual s2 E2) (DEFAULT_SOLVER e) = Ok d2 /\
    ctimes k (s_M s1) d1 d2.
Proof.
  intros G Hp HE H.
  assert (Hrun: exists d2, solver_complex2real e (s_M s1) (nl_jac11 s2 E2) (nl_jac12 s2 E2) (nl_residual s2 E2) (DEFAULT_SOLVER e) = Ok d2).
  { unfold solver_complex2real in *. destruct (all_zero (s_M s1) (nl_residual s2 E2)) eqn:Z2; [eexists; reflexivity|].
    destruct (all_zero (s_M s1) (nl_residual s1 E1)) eqn:Z1.
    - exfalso. assert (Z: all_zero (s_M s1) (nl_residual s2 E2) = true); [|congruence]. apply all_zero_spec. intros r Hr.
      rewrite (pw_residual s1 s2 E1 E2 r G HE Hr). rewrite (proj1 (all_zero_spec _ _) Z1 r Hr). ring.
    - destruct (DEFAULT_SOLVER e); try discriminate. destruct (e_pardiso e); [eexists; reflexivity|discriminate]. }
  destruct Hrun as [d2 H2]. exists d2. split; [exact H2|].
  assert (C1 := C28_complex2real_solves_widely_linear_system e _ _ _ _ _ Hre (pg_jac _ _ _ G Hp E1) _ H).
  assert (C2 := C28_complex2real_solves_widely_linear_system e _ _ _ _ _ Hre (pw_widely s1 s2 E1 E2 G Hp HE) _ H2).
  assert (S1: widely_solves (s_M s1) (nl_jac11 s1 E1) (nl_jac12 s1 E1) d1 (nl_residual s1 E1)) by (apply C1; intros r Hr; reflexivity).
  assert (S2: veq (s_M s1) (vscal k d1) d2).
  { apply C2. intros r Hr.
    change (mv (s_M s1) (nl_jac11 s2 E2) (vscal k d1) r + mv (s_M s1) (nl_jac12 s2 E2) (vconj (vscal k d1)) r = nl_residual s2 E2 r)%C.
    specialize (S1 r Hr). change (mv (s_M s1) (nl_jac11 s1 E1) d1 r + mv (s_M s1) (nl_jac12 s1 E1) (vconj d1) r = nl_residual s1 E1 r)%C in S1.
    rewrite (pw_residual s1 s2 E1 E2 r G HE Hr), <- S1. apply pw_wl; assumption. }
  intros r Hr. rewrite <- (S2 r Hr). reflexivity.
Qed.
Lemma pw_newton_loop thr n : forall s1 s2 E1 E2 s1' X1 l, pgood k s1 s2 -> s_pol s1 = PolEz -> ctimes k (s_M s1) E1 E2 ->
  newton_loop e thr n E1 s1 = (s1', Ok (X1, l)) ->
  exists s2' X2, newton_loop e thr n E2 s2 = (s2', Ok (X2, l)) /\ ctimes k (s_M s1) X1 X2 /\ pgood k s1' s2' /\
    s_M s1' = s_M s1 /\ s_pol s1' = PolEz.
Proof.
  induction n; intros s1 s2 E1 E2 s1' X1 l G Hp HE H; cbn [newton_loop] in *.
  - injection H as <- <- <-. do 2 eexists. split; [reflexivity|]. split; [exact HE|]. split; [exact G|]. split; [reflexivity|exact Hp].
  - assert (U := pg_rel _ _ _ G). unfold nl_eq_and_jac in *. rewrite (p_pol _ _ _ U), Hp in *.
    rewrite (p_size _ _ _ U), (pw_M _ _ _ U), (pg_size _ _ _ G), Nat.eqb_refl in *.
    change (s_M (compute_nl E1 s1)) with (s_M s1) in *. change (s_M (compute_nl E2 s2)) with (s_M s2). rewrite (pw_M _ _ _ U).
    destruct (solver_complex2real e (s_M s1) (nl_jac11 s1 E1) _ _ _) as [d1|] eqn:Ed; [|discriminate].
    destruct (pw_c2r s1 s2 E1 E2 d1 G Hp HE Ed) as (d2 & -> & Hd).
    assert (HEn := ctimes_minus k _ _ _ _ _ HE Hd).
    rewrite (ctimes_convergence k _ _ _ _ _ Hk HEn HE).
    assert (G' := pgood_compute k s1 s2 E1 E2 Hk G HE).
    destruct (xlt _ thr).
    + injection H as <- <- <-. do 2 eexists. split; [reflexivity|]. split; [exact HEn|]. split; [exact G'|]. split; [reflexivity|exact Hp].
    + destruct (newton_loop e thr n (vminus E1 d1) (compute_nl E1 s1)) as [s3 [[Y l3]|]] eqn:Q; [|discriminate].
      injection H as <- <- <-.
      destruct (IHn (compute_nl E1 s1) (compute_nl E2 s2) _ _ _ _ _ G' Hp HEn Q) as (s4 & Y2 & -> & HY & G2 & EM & EP).
      do 2 eexists. split; [reflexivity|]. split; [exact HY|]. split; [exact G2|]. split; assumption.
Qed.
Lemma pw_newton s1 s2 E1 E2 thr n av s1' F1 conv : pgood k s1 s2 -> pest_rel k (s_M s1) E1 E2 ->
  newton_solve e E1 thr n av s1 = (s1', Ok (F1, conv)) ->
  exists s2' F2, newton_solve e E2 thr n av s2 = (s2', Ok (F2, conv)) /\ ctimes3 k (s_M s1) F1 F2 /\ pgood k s1' s2' /\
    s_M s1' = s_M s1 /\ s_pol s1' = s_pol s1.
Proof.
  intros G HE H. unfold newton_solve in *. rewrite (p_pol _ _ _ (pg_rel _ _ _ G)). destruct (s_pol s1) eqn:Hp; [|discriminate].
  assert (Hst := pw_start s1 s2 E1 E2). rewrite Hp in Hst. cbn [pol_comp] in Hst.
  destruct (start_field e Ez E1 s1) as [s3 [F0|]] eqn:Q; [|discriminate].
  destruct (Hst s3 F0 G HE eq_refl) as (s4 & G0 & -> & HF & G' & EM & EP).
  destruct (newton_loop e thr n F0 s3) as [s5 [[E l]|]] eqn:Q1; [|discriminate].
  rewrite <- EM in HF.
  destruct (pw_newton_loop thr n s3 s4 F0 G0 s5 E l G' EP HF Q1) as (s6 & Y & -> & HY & G2 & EM2 & EP2).
  rewrite <- EM2 in HY.
  destruct (pw_solve_nl k e s5 s6 E Y Hk (pg_rel _ _ _ G2) He HY (pg_nl _ _ _ G2 E) (pg_size _ _ _ G2)) as (R1 & R2 & E5 & E6 & T).
  rewrite E5 in H. rewrite E6. destruct n; [discriminate|]. injection H as <- <- <-.
  do 2 eexists. split; [reflexivity|]. rewrite EM2, EM in T. split; [exact T|].
  split; [apply pgood_compute; assumption|]. split; [change (s_M s5 = s_M s1); congruence|exact EP2].
Qed.
Lemma pw_run_solver s1 s2 E1 E2 name thr n av s1' F1 conv : pgood k s1 s2 -> pest_rel k (s_M s1) E1 E2 ->
  name = "born"%string \/ name = "newton"%string \/ name = "hybrid"%string ->
  run_solver_nl e av E1 name thr n s1 = (s1', Ok (F1, conv)) ->
  exists s2' F2, run_solver_nl e av E2 name thr n s2 = (s2', Ok (F2, conv)) /\ ctimes3 k (s_M s1) F1 F2 /\ pgood k s1' s2' /\
    s_M s1' = s_M s1 /\ s_pol s1' = s_pol s1.
Proof.
  intros G HE [-> | [-> | ->]] H; unfold run_solver_nl in *.
  - rewrite String.eqb_refl in *. eapply pw_born; eassumption.
  - change (String.eqb "newton" "born") with false in *. rewrite String.eqb_refl in *. cbv iota in *. eapply pw_newton; eassumption.
  - change (String.eqb "hybrid" "born") with false in *. change (String.eqb "hybrid" "newton") with false in *.
    change (String.eqb "hybrid" "LM") with false in *. change (String.eqb "hybrid" "krylov") with false in *.
    rewrite String.eqb_refl in *. cbv iota in *.
    destruct (born_solve e E1 thr 20 av s1) as [s3 [[F3 c3]|]] eqn:Q; [|discriminate].
    destruct (pw_born s1 s2 E1 E2 thr 20 av s3 F3 c3 G HE Q) as (s4 & F4 & -> & T & G2 & EM & EP).
    destruct (last_conv c3) as [c|]; [|discriminate]. destruct (xgt c _).
    + assert (HE2: pest_rel k (s_M s3) (Some (snd F3)) (Some (snd F4))) by (rewrite EM; apply T).
      destruct (pw_newton s3 s4 _ _ thr 20 av s1' F1 conv G2 HE2 H) as (s6 & F6 & -> & T6 & G6 & EM6 & EP6).
      do 2 eexists. split; [reflexivity|]. rewrite EM in T6. split; [exact T6|]. split; [exact G6|]. split; congruence.
    + injection H as <- <- <-. do 2 eexists. split; [reflexivity|]. split; [exact T|]. split; [exact G2|]. split; assumption.
Qed.
Lemma pw_solve_fields_nl s1 s2 E1 E2 name thr n av s1' F1 conv : pgood k s1 s2 -> pest_rel k (s_M s1) E1 E2 ->
  name = "born"%string \/ name = "newton"%string \/ name = "hybrid"%string ->
  solve_fields_nl e av E1 name thr n s1 = (s1', Ok (F1, conv)) ->
  exists s2' F2, solve_fields_nl e av E2 name thr n s2 = (s2', Ok (F2, conv)) /\ ctimes3 k (s_M s1) F1 F2 /\ pgood k s1' s2' /\
    s_M s1' = s_M s1.
Proof.
  intros G HE Hn H. unfold solve_fields_nl in *.
  destruct (run_solver_nl e av E1 name thr n s1) as [s3 [[F3 c3]|]] eqn:Q; [|discriminate]. injection H as <- <- <-.
  destruct (pw_run_solver s1 s2 E1 E2 name thr n av s3 F3 c3 G HE Hn Q) as (s4 & F4 & -> & T & G2 & EM & EP).
  do 2 eexists. split; [reflexivity|]. split; [exact T|]. split; [|exact EM].
  destruct G2 as [H1 H2 H3 H4 H5 H6 H7]. constructor; try assumption. apply pw_upd_fields_nl; assumption.
Qed.
Lemma pw_index_shift s1 s2 s1' v1 : pgood k s1 s2 -> compute_index_shift e s1 = (s1', Ok v1) ->
  exists s2' v2, compute_index_shift e s2 = (s2', Ok v2) /\ forall r, (r < s_M s1)%nat -> v2 r = v1 r.
Proof.
  intros G H. unfold compute_index_shift, bind in *.
  destruct (solve_fields e false false s1) as [s3 [F|]] eqn:Q; [|discriminate].
  destruct (pw_solve_lin k e false s1 s2 s3 F Hk (pg_rel _ _ _ G) He (pg_A _ _ _ G) Q) as (s4 & F4 & Q4 & T & U & FF1 & FF2).
  rewrite Q4. assert (G3: pgood k s3 s4 /\ s_M s3 = s_M s1).
  { destruct F as [[a b] X]. destruct (solve_fields_lin e false s1 (pg_size _ _ _ G)) as (X1' & _ & R). cbv zeta in R. rewrite R in Q. injection Q as <- _ _ _.
    destruct (solve_fields_lin e false s2) as (X2' & _ & R2); [rewrite (p_size _ _ _ (pg_rel _ _ _ G)), (pw_M _ _ _ (pg_rel _ _ _ G)); apply (pg_size _ _ _ G)|].
    cbv zeta in R2. rewrite R2 in Q4. injection Q4 as <- _.
    split; [|reflexivity]. destruct G as [H1 H2 H3 H4 H5 H6 H7]. constructor; try assumption.
    change (s_pol (upd_fields _ s1)) with (s_pol s1). rewrite FF1, FF2. apply T. }
  destruct G3 as [G3 EM]. unfold solve_fields_nl_default in *.
  destruct (solve_fields_nl e false None "hybrid" (1 / 10 ^ 10) 50 s3) as [s5 [[F5 c5]|]] eqn:Q5; [|discriminate].
  destruct (pw_solve_fields_nl s3 s4 None None "hybrid" (1 / 10 ^ 10) 50 false s5 F5 c5 G3 I ltac:(auto) Q5) as (s6 & F6 & -> & T6 & G6 & EM6).
  unfold getS, ret in *. injection H as <- <-. do 2 eexists. split; [reflexivity|].
  intros r Hr. cbv beta. rewrite (p_eps _ _ _ (pg_rel _ _ _ G6)). rewrite (pg_eps_nl _ _ _ G6) by congruence. reflexivity.
Qed.
End Solvers.

Lemma weaker_coef p l r x : p <> 0%R -> (kerr_coef (List.map (weaker p) l) r x * p = kerr_coef l r x)%R.
Proof.
  intro Hp. unfold kerr_coef. induction l as [|q l IH]; simpl; [ring|]. rewrite Rmult_plus_distr_r. rewrite IH. f_equal. unfold nl_scale. cbn. field. exact Hp.
Qed.
Lemma rescaled_good c s1 s2 : c <> RtoC 0 -> rescaled c s1 s2 -> s_fields s1 (pol_comp (s_pol s1)) = None -> nd_size (s_src s1) = s_M s1 ->
  nonsingular (s_M s1) (s_A s1) -> (forall F, nonsingular (s_M s1) (nl_matrix s1 F)) ->
  (s_pol s1 = PolEz -> forall E, widely_injective (s_M s1) (nl_jac11 s1 E) (nl_jac12 s1 E)) -> pgood c s1 s2.
Proof.
  intros Hc -> HF HS HA HN HJ. constructor; try assumption; try reflexivity.
  - constructor; try reflexivity. intros r x. cbn [upd_nl upd_src s_nl]. rewrite <- Cmod_sq. apply weaker_coef. apply pow_nonzero. apply Rgt_not_eq, Cmod_gt_0, Hc.
  - change (s_fields (upd_nl _ _)) with (s_fields s1). rewrite HF. exact I.
Qed.

(** Source times c and chi3 divided by |c|^2: every solver makes the same decisions, records the same convergences
    and returns c times the fields. *)
Theorem C100_power_and_chi3 :
  forall e c s1 s2 av E1 E2 name thr n s1' F1 conv, c <> RtoC 0 -> rescaled c s1 s2 -> s_fields s1 (pol_comp (s_pol s1)) = None ->
  solver_exact e -> real_solver_exact e -> nd_size (s_src s1) = s_M s1 ->
  nonsingular (s_M s1) (s_A s1) -> (forall F, nonsingular (s_M s1) (nl_matrix s1 F)) ->
  (s_pol s1 = PolEz -> forall E, widely_injective (s_M s1) (nl_jac11 s1 E) (nl_jac12 s1 E)) ->
  match E1, E2 with
  | None, None => True
  | Some v1, Some v2 => forall r, (r < s_M s1)%nat -> v2 r = (c * v1 r)%C
  | _, _ => False
  end ->
  name = "born"%string \/ name = "newton"%string \/ name = "hybrid"%string ->
  solve_fields_nl e av E1 name thr n s1 = (s1', Ok (F1, conv)) ->
  exists s2' F2, solve_fields_nl e av E2 name thr n s2 = (s2', Ok (F2, conv)) /\
    forall r, (r < s_M s1)%nat ->
      fst (fst F2) r = (c * fst (fst F1) r)%C /\ snd (fst F2) r = (c * snd (fst F1) r)%C /\ snd F2 r = (c * snd F1 r)%C.
Proof.
  intros e c s1 s2 av E1 E2 name thr n s1' F1 conv Hc HR HF He Hre HS HA HN HJ HE Hn H.
  destruct (pw_solve_fields_nl c e Hc He Hre s1 s2 E1 E2 name thr n av s1' F1 conv) as (s2' & F2 & Q2 & T & _); try assumption.
  - apply rescaled_good; assumption.
  - exists s2', F2. split; [exact Q2|]. intros r Hr. destruct T as (T1 & T2 & T3). split; [apply T1; exact Hr|]. split; [apply T2; exact Hr|apply T3; exact Hr].
Qed.

(** The refractive index shift is the same. *)
Theorem C100_same_index_shift :
  forall e c s1 s2 s1' v1, c <> RtoC 0 -> rescaled c s1 s2 -> s_fields s1 (pol_comp (s_pol s1)) = None ->
  solver_exact e -> real_solver_exact e -> nd_size (s_src s1) = s_M s1 ->
  nonsingular (s_M s1) (s_A s1) -> (forall F, nonsingular (s_M s1) (nl_matrix s1 F)) ->
  (s_pol s1 = PolEz -> forall E, widely_injective (s_M s1) (nl_jac11 s1 E) (nl_jac12 s1 E)) ->
  compute_index_shift e s1 = (s1', Ok v1) ->
  exists s2' v2, compute_index_shift e s2 = (s2', Ok v2) /\ forall r, (r < s_M s1)%nat -> v2 r = v1 r.
Proof.
  intros e c s1 s2 s1' v1 Hc HR HF He Hre HS HA HN HJ H. apply (pw_index_shift c e Hc He Hre s1 s2 s1' v1); [|exact H]. apply rescaled_good; assumption.
Qed.

(** The exact solutions, with no condition on the solver: X solves the first equation if and only if c X solves the second. *)
Theorem C100_solutions :
  forall c s1 s2 X, c <> RtoC 0 -> rescaled c s1 s2 -> (nonlinear_solution s2 (fun r => c * X r)%C <-> nonlinear_solution s1 X).
Proof.
  intros c s1 s2 X Hc HR.
  assert (HP : pow_rel c s1 s2).
  { rewrite HR. constructor; try reflexivity. intros r x. cbn [upd_nl upd_src s_nl]. rewrite <- Cmod_sq. apply weaker_coef. apply pow_nonzero. apply Rgt_not_eq, Cmod_gt_0, Hc. }
  assert (ER : forall r, (r < s_M s1)%nat -> nl_residual s2 (fun r => c * X r)%C r = (c * nl_residual s1 X r)%C).
  { intros r Hr. transitivity (mv (s_M s2) (nl_matrix s2 (fun r => c * X r)%C) (vscal c X) r - rhs s2 r)%C; [reflexivity|].
    transitivity (c * (mv (s_M s1) (nl_matrix s1 X) X r - rhs s1 r))%C; [|reflexivity].
    rewrite (pw_M _ _ _ HP), (pw_nl_matrix c s1 s2 X _ _ r Hc HP) by (try exact Hr; intros q _; reflexivity). rewrite (pw_rhs c s1 s2 r HP Hr), mv_vscal. ring. }
  rewrite !residual_zero. rewrite (pw_M _ _ _ HP). split; intros H r Hr.
  - specialize (H r Hr). rewrite ER in H by exact Hr. apply Cmult_integral in H as [H|H]; [contradiction|exact H].
  - rewrite ER by exact Hr. rewrite (H r Hr). ring.
Qed.

Example C100_met : exists s2, rescaled (Ci + RtoC 2)%C ex_nl s2 /\ s_fields ex_nl (pol_comp (s_pol ex_nl)) = None /\ solver_exact ex_env_mkl /\ real_solver_exact ex_env_mkl /\
  nd_size (s_src ex_nl) = s_M ex_nl /\ nonsingular (s_M ex_nl) (s_A ex_nl) /\ (forall F, nonsingular (s_M ex_nl) (nl_matrix ex_nl F)) /\
  (forall E, widely_injective (s_M ex_nl) (nl_jac11 ex_nl E) (nl_jac12 ex_nl E)) /\ nonlinear_solution ex_nl ex_F /\
  exists s' F conv, solve_fields_nl ex_env_mkl false None "newton" (1 / 10 ^ 10) 50 ex_nl = (s', Ok (F, conv)).
Proof.
  destruct C82_met as (s0 & D & _ & _ & HA & _).
  destruct ex_nl_facts as (EM & EP & ES & _). destruct (same_device_rel _ _ _ _ _ _ D) as (_ & EF & _).
  eexists. split; [reflexivity|]. split; [rewrite EF; reflexivity|]. split; [apply ex_mkl_exact|]. split; [apply ex_mkl_real_exact|]. split; [congruence|].
  split; [exact HA|]. split; [apply ex_nl_nonsingular|]. split; [apply ex_nl_widely|]. split; [apply ex_nl_solution|]. apply C30_met.
Qed.
