(** C82: the choice of the length unit L0. *)
From Coq Require Import Reals Lra Lia List ZArith Arith Bool String.
From Coquelicot Require Import Coquelicot.
From Verif Require Import Base Linear MCore MSim Spec PCore PSim PEx PropsCore PropsSolve PropsNl PropsIter PSym.
Import ListNotations.

(* ------------------------------------------------------------------ *)
(** ** one axis *)
Lemma Sfac_unit l dw omega L0 k : (0 < k)%R -> dw <> 0%R -> (0 < omega)%R -> (0 < L0)%R ->
  Sfac (l / k) (dw / k) omega (k * L0) = Sfac l dw omega L0.
Proof.
  intros Hk Hd Ho HL. assert (HE := EPSILON_0_pos). unfold Sfac. f_equal.
  assert (E: sig_w (l / k) (dw / k) = (k * sig_w l dw)%R).
  { unfold sig_w. replace (l / k / (dw / k))%R with (l / dw)%R by (field; lra).
    assert (HE0: ETA_0 <> 0%R) by (apply Rgt_not_eq, ETA_0_pos). field. repeat split; lra. }
  rewrite E. replace (omega * EPSILON_0 * (k * L0))%R with (k * (omega * EPSILON_0 * L0))%R by ring.
  assert (omega * EPSILON_0 * L0 <> 0)%R by (apply Rgt_not_eq, Rmult_lt_0_compat; [apply Rmult_lt_0_compat|]; lra).
  rewrite !(RtoC_mult k). field. split; apply RtoC_neq0; lra.
Qed.
Lemma sfactor_unit a b L0 s omega N Np k i : (0 < k)%R -> (a < b)%R -> (0 < N)%nat -> (0 < omega)%R -> (0 < L0)%R ->
  create_sfactor (a / k, b / k)%R (k * L0) s omega N Np i = create_sfactor (a, b) L0 s omega N Np i.
Proof.
  intros Hk Hab HN Ho HL. unfold create_sfactor. destruct (Nat.ltb_spec Np 1); [reflexivity|].
  cbn [fst snd]. set (hw := ((b - a) / INR N)%R).
  assert (HNr: (0 < INR N)%R) by (apply lt_INR in HN; simpl in HN; lra).
  assert (Hhw: (0 < hw)%R) by (apply Rdiv_lt_0_compat; lra).
  replace ((b / k - a / k) / INR N)%R with (hw / k)%R by (unfold hw; field; lra).
  assert (HNp: (0 < INR Np)%R) by (apply lt_0_INR; lia).
  assert (E: forall x, Sfac (hw / k * x) (INR Np * (hw / k)) omega (k * L0) = Sfac (hw * x) (INR Np * hw) omega L0).
  { intro x. rewrite <- (Sfac_unit (hw * x) (INR Np * hw) omega L0 k); try assumption.
    - f_equal; field; lra.
    - apply Rgt_not_eq, Rmult_lt_0_compat; assumption. }
  rewrite !E. reflexivity.
Qed.
Lemma pax_unit s omega L0 a b d N Np u k i : (0 < k)%R -> (a < b)%R -> (2 <= N)%nat -> (0 < omega)%R -> (0 < L0)%R -> d <> 0%R ->
  pax s omega (k * L0) (a / k, b / k)%R (d / k) N Np u i = (RtoC k * pax s omega L0 (a, b) d N Np u i)%C.
Proof.
  intros Hk Hab HN Ho HL Hd. unfold pax. rewrite sfactor_unit by (assumption || lia). unfold ax. rewrite ltb_true by lia.
  rewrite RtoC_div by lra. assert (RtoC k <> RtoC 0) by (apply RtoC_neq0; lra). assert (RtoC d <> RtoC 0) by (apply RtoC_neq0; assumption).
  assert (HS: create_sfactor (a, b) L0 s omega N Np i <> RtoC 0) by (apply sfactor_neq0; cbn [fst snd]; (assumption || lia)).
  destruct s; field; auto.
Qed.
(* ------------------------------------------------------------------ *)
(** ** two simulations of the same device in different units *)
Record unit_rel (k : R) (s1 s2 : sim) : Prop := {
  u_omega : s_omega s2 = s_omega s1;
  u_omega_pos : (0 < s_omega s1)%R;
  u_L0_pos : (0 < s_L0 s1)%R;
  u_pol : s_pol s2 = s_pol s1;
  u_L0 : s_L0 s2 = (k * s_L0 s1)%R;
  u_Nx : s_Nx s2 = s_Nx s1;
  u_Ny : s_Ny s2 = s_Ny s1;
  u_A : forall x r, (r < s_M s1)%nat -> mv (s_M s1) (s_A s2) x r = (RtoC k * mv (s_M s1) (s_A s1) x r)%C;
  u_Dx : forall x r, (r < s_M s1)%nat -> mv (s_M s1) (Dxb (s_derivs s2)) x r = (RtoC k * mv (s_M s1) (Dxb (s_derivs s1)) x r)%C;
  u_Dy : forall x r, (r < s_M s1)%nat -> mv (s_M s1) (Dyb (s_derivs s2)) x r = (RtoC k * mv (s_M s1) (Dyb (s_derivs s1)) x r)%C;
  u_eps : forall r, nd_buf (s_eps s2) r = nd_buf (s_eps s1) r;
  u_nl : forall r, kerr_coef (s_nl s2) r (nd_buf (s_eps s2) r) = (kerr_coef (s_nl s1) r (nd_buf (s_eps s1) r) / k ^ 2)%R;
  u_size : nd_size (s_src s2) = nd_size (s_src s1);
  u_src : forall r, (r < s_M s1)%nat -> nd_buf (s_src s2) r = (RtoC (k ^ 2) * nd_buf (s_src s1) r)%C }.
(** [v2] is [v1] multiplied by [k] *)
Definition times (k : R) (n : nat) (v1 v2 : vec) : Prop := forall r, (r < n)%nat -> v2 r = (RtoC k * v1 r)%C.
Definition times3 k n (F1 F2 : vec * vec * vec) : Prop :=
  times k n (fst (fst F1)) (fst (fst F2)) /\ times k n (snd (fst F1)) (snd (fst F2)) /\ times k n (snd F1) (snd F2).

Lemma unit_M k s1 s2 : unit_rel k s1 s2 -> s_M s2 = s_M s1.
Proof. intro H. unfold s_M. rewrite (u_Nx _ _ _ H), (u_Ny _ _ _ H). reflexivity. Qed.
Lemma unit_compute_nl k s1 s2 F1 F2 : unit_rel k s1 s2 -> unit_rel k (compute_nl F1 s1) (compute_nl F2 s2).
Proof. intros []. constructor; assumption. Qed.
Lemma unit_upd_fields k s1 s2 F1 F2 : unit_rel k s1 s2 -> unit_rel k (upd_fields F1 s1) (upd_fields F2 s2).
Proof. intros []. constructor; assumption. Qed.
Lemma unit_upd_fields_nl k s1 s2 F1 F2 : unit_rel k s1 s2 -> unit_rel k (upd_fields_nl F1 s1) (upd_fields_nl F2 s2).
Proof. intros []. constructor; assumption. Qed.
Lemma Cnorm2_times k z : Cnorm2 (RtoC k * z)%C = (k ^ 2 * Cnorm2 z)%R.
Proof. rewrite Cnorm2_mult. unfold Cnorm2 at 1. simpl. ring. Qed.
Lemma unit_eps_nl k s1 s2 F1 F2 r : (0 < k)%R -> unit_rel k s1 s2 -> times k (s_M s1) F1 F2 -> (r < s_M s1)%nat ->
  s_eps_nl (compute_nl F2 s2) r = s_eps_nl (compute_nl F1 s1) r.
Proof.
  intros Hk H HF Hr. cbn [compute_nl upd_nlvals s_eps_nl]. rewrite !sum_eps_nl_coef, (u_nl _ _ _ H), (HF r Hr), Cnorm2_times. field. lra.
Qed.
Lemma unit_dnl_de k s1 s2 F1 F2 r : (0 < k)%R -> unit_rel k s1 s2 -> times k (s_M s1) F1 F2 -> (r < s_M s1)%nat ->
  s_dnl_de (compute_nl F2 s2) r = (RtoC (/ k) * s_dnl_de (compute_nl F1 s1) r)%C.
Proof.
  intros Hk H HF Hr. cbn [compute_nl upd_nlvals s_dnl_de]. rewrite !sum_dnl_de_coef, (u_nl _ _ _ H), (HF r Hr), Cconj_mult, Cconj_RtoC.
  unfold Rdiv. rewrite (RtoC_mult _ (/ k ^ 2)).
  replace (RtoC (/ k)) with (RtoC (/ k ^ 2) * RtoC k)%C by (rewrite <- RtoC_mult; f_equal; field; lra). ring.
Qed.
Lemma unit_nl_matrix k s1 s2 F1 F2 x r : (0 < k)%R -> unit_rel k s1 s2 -> times k (s_M s1) F1 F2 -> (r < s_M s1)%nat ->
  mv (s_M s1) (nl_matrix s2 F2) x r = (RtoC k * mv (s_M s1) (nl_matrix s1 F1) x r)%C.
Proof.
  intros Hk H HF Hr. unfold nl_matrix. rewrite !mv_mplus, !mv_diag by assumption. rewrite (u_A _ _ _ H) by assumption.
  rewrite (unit_eps_nl k s1 s2 F1 F2 r Hk H HF Hr), (u_omega _ _ _ H), (u_L0 _ _ _ H). rewrite !RtoC_mult. ring.
Qed.
Lemma unit_rhs k s1 s2 r : unit_rel k s1 s2 -> (r < s_M s1)%nat -> rhs s2 r = (RtoC (k ^ 2) * rhs s1 r)%C.
Proof. intros H Hr. unfold rhs. rewrite (u_src _ _ _ H) by assumption. rewrite (u_omega _ _ _ H). ring. Qed.

(** a scaled system has a scaled solution *)
Lemma scaled_nonsingular k n A1 A2 : (0 < k)%R ->
  (forall x r, (r < n)%nat -> mv n A2 x r = (RtoC k * mv n A1 x r)%C) -> nonsingular n A1 -> nonsingular n A2.
Proof.
  intros Hk HA HN. apply injective_nonsingular. intros x Hx. apply (nonsingular_injective n A1 x HN).
  intros r Hr. specialize (Hx r Hr). rewrite HA in Hx by assumption. apply Cmult_integral in Hx as [Hx|Hx]; [|exact Hx].
  exfalso. apply RtoC_inj in Hx. lra.
Qed.
Lemma scaled_solution k n A1 A2 b1 b2 x1 x2 : (0 < k)%R ->
  (forall x r, (r < n)%nat -> mv n A2 x r = (RtoC k * mv n A1 x r)%C) -> nonsingular n A1 ->
  (forall r, (r < n)%nat -> b2 r = (RtoC (k ^ 2) * b1 r)%C) ->
  solves n A1 x1 b1 -> solves n A2 x2 b2 -> times k n x1 x2.
Proof.
  intros Hk HA HN Hb H1 H2. assert (HN2 := scaled_nonsingular k n A1 A2 Hk HA HN).
  apply (solves_unique n A2 x2 (fun r => RtoC k * x1 r)%C b2 HN2 H2).
  apply solves_mv. intros r Hr. rewrite HA by assumption. rewrite Hb by assumption.
  rewrite (mv_ext_v n A1 (fun r => RtoC k * x1 r)%C (vscal (RtoC k) x1)) by (intros c Hc; reflexivity).
  rewrite mv_vscal. assert (Q := H1 r Hr). change (mv n A1 x1 r = b1 r) in Q. rewrite Q. simpl. rewrite !RtoC_mult. ring.
Qed.
Lemma eps_dir_unit w av k L0 Nx Ny eps1 eps2 r : (r < Nx * Ny)%nat ->
  (forall q, (q < Nx * Ny)%nat -> eps2 q = eps1 q) ->
  eps_dir w av (k * L0) Nx Ny eps2 r = (RtoC k * eps_dir w av L0 Nx Ny eps1 r)%C.
Proof.
  intros Hr H. destruct (pix_bound _ _ _ Hr) as (i & j & Hi & Hj & ->).
  assert (Hp: forall i j, (i < Nx)%nat -> (j < Ny)%nat -> eps2 (pix Ny i j) = eps1 (pix Ny i j)) by (intros; apply H; apply flat_lt; assumption).
  replace (EPSILON_0 * (k * L0))%R with (k * (EPSILON_0 * L0))%R by ring.
  assert (E2: RtoC 2 <> RtoC 0) by (apply RtoC_neq0; lra).
  destruct w; [rewrite !eps_dir_x by assumption|rewrite !eps_dir_y by assumption];
    rewrite !Hp by (try apply prev_lt; assumption);
    replace (EPSILON_0 * (k * L0))%R with (k * (EPSILON_0 * L0))%R by ring; rewrite (RtoC_mult k); destruct av; try (field; assumption); ring.
Qed.
Lemma Cinv_scal_zero (k : R) (z : C) : k <> 0%R -> (/ (RtoC k * z) = RtoC (/ k) * / z)%C.
Proof.
  intro Hk. assert (RtoC k <> RtoC 0) by (apply RtoC_neq0; assumption).
  destruct (Ceq_dec z (RtoC 0)) as [-> | Hz].
  - rewrite Cmult_0_r. assert (E: (/ RtoC 0)%C = RtoC 0). { unfold Cinv, RtoC; simpl. f_equal; unfold Rdiv; ring. } rewrite E. ring.
  - rewrite RtoC_inv by assumption. field. auto.
Qed.
Lemma unit_derived k s1 s2 eps1 eps2 av X1 X2 : (0 < k)%R -> unit_rel k s1 s2 ->
  (forall q, (q < s_M s1)%nat -> eps2 q = eps1 q) -> times k (s_M s1) X1 X2 ->
  times k (s_M s1) (fst (derived_fields s1 eps1 av X1)) (fst (derived_fields s2 eps2 av X2)) /\
  times k (s_M s1) (snd (derived_fields s1 eps1 av X1)) (snd (derived_fields s2 eps2 av X2)).
Proof.
  intros Hk H He HX. unfold derived_fields. rewrite (u_pol _ _ _ H), (u_omega _ _ _ H), (u_L0 _ _ _ H), (u_Nx _ _ _ H), (u_Ny _ _ _ H), (unit_M _ _ _ H).
  assert (Ho := u_omega_pos _ _ _ H). assert (HL := u_L0_pos _ _ _ H). assert (HMU := MU_0_pos). assert (HCi := Ci_neq0).
  assert (RtoC k <> RtoC 0) by (apply RtoC_neq0; lra). assert (RtoC (s_omega s1) <> RtoC 0) by (apply RtoC_neq0; lra).
  assert (HX': forall r, (r < s_M s1)%nat -> X2 r = vscal (RtoC k) X1 r) by exact HX.
  assert (EX: forall r, (r < s_M s1)%nat -> mv (s_M s1) (Dxb (s_derivs s2)) X2 r = (RtoC k * (RtoC k * mv (s_M s1) (Dxb (s_derivs s1)) X1 r))%C).
  { intros r Hr. rewrite (u_Dx _ _ _ H) by assumption. rewrite (mv_ext_v _ _ _ _ r HX'), mv_vscal. reflexivity. }
  assert (EY: forall r, (r < s_M s1)%nat -> mv (s_M s1) (Dyb (s_derivs s2)) X2 r = (RtoC k * (RtoC k * mv (s_M s1) (Dyb (s_derivs s1)) X1 r))%C).
  { intros r Hr. rewrite (u_Dy _ _ _ H) by assumption. rewrite (mv_ext_v _ _ _ _ r HX'), mv_vscal. reflexivity. }
  destruct (s_pol s1); cbn [fst snd].
  - assert (RtoC (MU_0 * s_L0 s1) <> RtoC 0) by (apply RtoC_neq0, Rgt_not_eq, Rmult_lt_0_compat; lra).
    replace (MU_0 * (k * s_L0 s1))%R with (k * (MU_0 * s_L0 s1))%R by ring. rewrite (RtoC_mult k).
    split; intros r Hr; unfold vscal; [rewrite EY by assumption|rewrite EX by assumption]; field; auto.
  - unfold spdiags. split; intros r Hr; unfold vscal; rewrite !mv_mm, !mv_diag by assumption.
    + rewrite EY by assumption. rewrite (eps_dir_unit AxY av k (s_L0 s1) (s_Nx s1) (s_Ny s1) eps1 eps2 r Hr He).
      rewrite Cinv_scal_zero by lra. rewrite RtoC_inv by lra. set (z := (/ eps_dir _ _ _ _ _ _ _)%C). field. auto.
    + rewrite EX by assumption. rewrite (eps_dir_unit AxX av k (s_L0 s1) (s_Nx s1) (s_Ny s1) eps1 eps2 r Hr He).
      rewrite Cinv_scal_zero by lra. rewrite RtoC_inv by lra. set (z := (/ eps_dir _ _ _ _ _ _ _)%C). field. auto.
Qed.
(** one linear solve *)
Lemma unit_solve_lin k e av s1 s2 s1' F1 : (0 < k)%R -> unit_rel k s1 s2 -> solver_exact e ->
  nonsingular (s_M s1) (s_A s1) -> solve_fields e false av s1 = (s1', Ok F1) ->
  exists s2' F2, solve_fields e false av s2 = (s2', Ok F2) /\ times3 k (s_M s1) F1 F2 /\ unit_rel k s1' s2' /\
    s_fields s1' (pol_comp (s_pol s1)) = Some (snd F1) /\ s_fields s2' (pol_comp (s_pol s1)) = Some (snd F2).
Proof.
  intros Hk H He HA H1. destruct F1 as [[a1 b1] X1].
  assert (HS1 := solve_fields_ok _ _ _ _ _ _ _ _ H1). destruct HS1 as (Hsz & HX1 & HD1 & _). cbn [used_matrix used_eps] in HX1, HD1.
  destruct (solve_fields_lin e av s2) as [X2 [HX2 H2]]; [rewrite (u_size _ _ _ H), (unit_M _ _ _ H); exact Hsz|].
  destruct (solve_fields_lin e av s1 Hsz) as [X1' [HX1' H1']].
  rewrite H1' in H1. cbv zeta in H1. injection H1 as <- Ea Eb EX. cbv zeta in H2.
  rewrite EX in *.
  rewrite (unit_M _ _ _ H) in HX2.
  assert (HA2: nonsingular (s_M s1) (s_A s2)) by (apply (scaled_nonsingular k _ (s_A s1)); [assumption|apply (u_A _ _ _ H)|assumption]).
  assert (S1 := solver_direct_correct _ _ _ _ _ _ He HA HX1).
  assert (S2 := solver_direct_correct _ _ _ _ _ _ He HA2 HX2).
  assert (HT: times k (s_M s1) X1 X2).
  { apply (scaled_solution k _ (s_A s1) (s_A s2) (rhs s1) (rhs s2)); try assumption; [apply (u_A _ _ _ H)|].
    intros r Hr. apply unit_rhs; assumption. }
  destruct (unit_derived k s1 s2 (s_epsC s1) (s_epsC s2) av X1 X2 Hk H) as [Da Db]; [|assumption|].
  { intros q _. unfold s_epsC, cvec. rewrite (u_eps _ _ _ H). reflexivity. }
  do 2 eexists. split; [exact H2|]. split; [|split; [apply unit_upd_fields; assumption|]].
  - unfold times3. cbn [fst snd]. rewrite <- Ea, <- Eb. auto.
  - cbn [upd_fields s_fields fst snd]. rewrite (u_pol _ _ _ H). unfold store3.
    split; unfold fset; destruct (s_pol s1); reflexivity.
Qed.
(** one solve with the nonlinear permittivity of a given field *)
Lemma unit_solve_nl k e s1 s2 F1 F2 : (0 < k)%R -> unit_rel k s1 s2 -> solver_exact e -> times k (s_M s1) F1 F2 ->
  nonsingular (s_M s1) (nl_matrix s1 F1) -> nd_size (s_src s1) = s_M s1 ->
  exists G1 G2, solve_fields e true false (compute_nl F1 s1) = (compute_nl F1 s1, Ok G1) /\
    solve_fields e true false (compute_nl F2 s2) = (compute_nl F2 s2, Ok G2) /\ times3 k (s_M s1) G1 G2.
Proof.
  intros Hk H He HF HA Hsz.
  destruct (solve_nl_ok e false F1 s1 Hsz) as (a1 & b1 & X1 & H1 & HX1).
  destruct (solve_nl_ok e false F2 s2) as (a2 & b2 & X2 & H2 & HX2); [rewrite (u_size _ _ _ H), (unit_M _ _ _ H); exact Hsz|].
  exists (a1, b1, X1), (a2, b2, X2). split; [exact H1|]. split; [exact H2|].
  rewrite (unit_M _ _ _ H) in HX2.
  assert (HU: forall x r, (r < s_M s1)%nat -> mv (s_M s1) (nl_matrix s2 F2) x r = (RtoC k * mv (s_M s1) (nl_matrix s1 F1) x r)%C).
  { intros; apply unit_nl_matrix; assumption. }
  assert (HA2 := scaled_nonsingular k _ _ _ Hk HU HA).
  assert (S1 := solver_direct_correct _ _ _ _ _ _ He HA HX1).
  assert (S2 := solver_direct_correct _ _ _ _ _ _ He HA2 HX2).
  assert (HT: times k (s_M s1) X1 X2).
  { apply (scaled_solution k _ (nl_matrix s1 F1) (nl_matrix s2 F2) (rhs s1) (rhs s2)); try assumption.
    intros r Hr. apply unit_rhs; assumption. }
  apply solve_fields_ok in H1 as (_ & _ & D1 & _). apply solve_fields_ok in H2 as (_ & _ & D2 & _). cbn [used_eps] in D1, D2.
  destruct (unit_derived k (compute_nl F1 s1) (compute_nl F2 s2) (fun k0 : nat => (s_epsC (compute_nl F1 s1) k0 + RtoC (s_eps_nl (compute_nl F1 s1) k0))%C)
    (fun k0 : nat => (s_epsC (compute_nl F2 s2) k0 + RtoC (s_eps_nl (compute_nl F2 s2) k0))%C) false X1 X2 Hk (unit_compute_nl _ _ _ _ _ H)) as [Da Db]; [|exact HT|].
  { intros q Hq. rewrite (unit_eps_nl k s1 s2 F1 F2 q Hk H HF Hq). f_equal.
    unfold s_epsC, cvec. cbn [compute_nl upd_nlvals s_eps]. rewrite (u_eps _ _ _ H). reflexivity. }
  rewrite <- D1, <- D2 in Da, Db. unfold times3. cbn [fst snd] in *. auto.
Qed.
Lemma times_minus k n F1 F2 G1 G2 : times k n F1 F2 -> times k n G1 G2 -> times k n (vminus F1 G1) (vminus F2 G2).
Proof. intros HF HG r Hr. unfold vminus. rewrite (HF r Hr), (HG r Hr). ring. Qed.
Lemma times_nrm k n F1 F2 : (0 < k)%R -> times k n F1 F2 -> nrm n F2 = (k * nrm n F1)%R.
Proof.
  intros Hk H. unfold nrm. rewrite (rsum_ext n _ (fun r => (k ^ 2 * Cnorm2 (F1 r))%R)) by (intros r Hr; rewrite (H r Hr); apply Cnorm2_times).
  rewrite rsum_scal. rewrite sqrt_mult_alt by apply pow2_ge_0. rewrite sqrt_pow2 by lra. reflexivity.
Qed.
Lemma times_convergence k n F1 F2 G1 G2 : (0 < k)%R -> times k n F1 F2 -> times k n G1 G2 -> convergence n F2 G2 = convergence n F1 G1.
Proof.
  intros Hk HF HG. unfold convergence, xdiv. rewrite (times_nrm k n F1 F2 Hk HF), (times_nrm k n _ _ Hk (times_minus k n _ _ _ _ HF HG)).
  set (a := nrm n (vminus F1 G1)). set (b := nrm n F1).
  destruct (Req_EM_T b 0) as [->|Hb].
  - rewrite Rmult_0_r. destruct (Req_EM_T 0 0) as [_|]; [|contradiction].
    destruct (Req_EM_T a 0) as [->|Ha].
    + rewrite Rmult_0_r. destruct (Req_EM_T 0 0); [reflexivity|contradiction].
    + destruct (Req_EM_T (k * a) 0) as [E|]; [|reflexivity]. apply Rmult_integral in E as [E|E]; [lra|contradiction].
  - destruct (Req_EM_T (k * b) 0) as [E|]; [apply Rmult_integral in E as [E|E]; [lra|contradiction]|].
    f_equal. field. lra.
Qed.
(* ------------------------------------------------------------------ *)
(** ** the nonlinear solvers *)
Definition est_rel (k : R) (n : nat) (E1 E2 : option vec) : Prop :=
  match E1, E2 with None, None => True | Some F1, Some F2 => times k n F1 F2 | _, _ => False end.
Record good (k : R) (s1 s2 : sim) : Prop := {
  g_rel : unit_rel k s1 s2;
  g_fields : est_rel k (s_M s1) (s_fields s1 (pol_comp (s_pol s1))) (s_fields s2 (pol_comp (s_pol s1)));
  g_size : nd_size (s_src s1) = s_M s1;
  g_A : nonsingular (s_M s1) (s_A s1);
  g_nl : forall F, nonsingular (s_M s1) (nl_matrix s1 F);
  g_jac : s_pol s1 = PolEz -> forall E, widely_injective (s_M s1) (nl_jac11 s1 E) (nl_jac12 s1 E);
  g_eps_nl : forall r, (r < s_M s1)%nat -> s_eps_nl s2 r = s_eps_nl s1 r }.
Lemma good_compute k s1 s2 F1 F2 : (0 < k)%R -> good k s1 s2 -> times k (s_M s1) F1 F2 -> good k (compute_nl F1 s1) (compute_nl F2 s2).
Proof.
  intros Hk [H1 H2 H3 H4 H5 H6 H7] HF. constructor; try assumption.
  - apply unit_compute_nl; assumption.
  - intros r Hr. apply (unit_eps_nl k); assumption.
Qed.
Section Solvers.
Variables (k : R) (e : env).
Hypothesis (Hk : (0 < k)%R) (He : solver_exact e) (Hre : real_solver_exact e).
Lemma unit_start s1 s2 E1 E2 s1' F1 : good k s1 s2 -> est_rel k (s_M s1) E1 E2 ->
  start_field e (pol_comp (s_pol s1)) E1 s1 = (s1', Ok F1) ->
  exists s2' F2, start_field e (pol_comp (s_pol s1)) E2 s2 = (s2', Ok F2) /\ times k (s_M s1) F1 F2 /\ good k s1' s2' /\
    s_M s1' = s_M s1 /\ s_pol s1' = s_pol s1.
Proof.
  intros G HE H. unfold start_field in *. destruct E1 as [E1|]; destruct E2 as [E2|]; try contradiction.
  - injection H as <- <-. do 2 eexists. split; [reflexivity|]. split; [assumption|]. split; [exact G|]. split; reflexivity.
  - assert (HF := g_fields _ _ _ G). destruct (s_fields s1 _) as [G1|] eqn:Q1; destruct (s_fields s2 _) as [G2|]; try contradiction.
    + injection H as <- <-. do 2 eexists. split; [reflexivity|]. split; [assumption|]. split; [exact G|]. split; reflexivity.
    + destruct (solve_fields e false false s1) as [s3 [[[a b] X]|]] eqn:E; [|discriminate]. injection H as <- <-.
      destruct (unit_solve_lin k e false s1 s2 s3 (a, b, X) Hk (g_rel _ _ _ G) He (g_A _ _ _ G) E) as (s2' & [[a2 b2] X2] & E2 & T & U & FF1 & FF2).
      rewrite E2. exists s2', X2. cbn [snd] in *.
      assert (HT: times k (s_M s1) X X2) by apply T.
      destruct (solve_fields_lin e false s1 (g_size _ _ _ G)) as (X1' & _ & Q). cbv zeta in Q. rewrite Q in E. injection E as <- _ _ _.
      split; [reflexivity|]. split; [exact HT|]. split; [|split; reflexivity].
      destruct G as [H1 H2 H3 H4 H5 H6 H7]. 
      destruct (solve_fields_lin e false s2) as (X2' & _ & Q2); [rewrite (u_size _ _ _ H1), (unit_M _ _ _ H1); assumption|].
      cbv zeta in Q2. rewrite Q2 in E2. injection E2 as <- _ _ _.
      constructor; try assumption. change (s_pol (upd_fields _ s1)) with (s_pol s1). rewrite FF1, FF2. exact HT.
Qed.
Definition orel (n : nat) (r1 r2 : option (vec * vec * vec)) : Prop :=
  match r1, r2 with None, None => True | Some F1, Some F2 => times3 k n F1 F2 | _, _ => False end.
Lemma unit_born_loop thr n : forall s1 s2 F1 F2, good k s1 s2 -> times k (s_M s1) F1 F2 ->
  exists s1' s2' r1 r2 l, born_loop e thr n F1 s1 = (s1', Ok (r1, l)) /\ born_loop e thr n F2 s2 = (s2', Ok (r2, l)) /\
    orel (s_M s1) r1 r2 /\ good k s1' s2' /\ s_M s1' = s_M s1 /\ s_pol s1' = s_pol s1.
Proof.
  induction n; intros s1 s2 F1 F2 G HF; cbn [born_loop].
  - do 5 eexists. split; [reflexivity|]. split; [reflexivity|]. split; [exact I|]. split; [exact G|]. split; reflexivity.
  - destruct (unit_solve_nl k e s1 s2 F1 F2 Hk (g_rel _ _ _ G) He HF (g_nl _ _ _ G F1) (g_size _ _ _ G)) as ([[a1 b1] X1] & [[a2 b2] X2] & E1 & E2 & T).
    rewrite E1, E2. assert (HX: times k (s_M s1) X1 X2) by apply T.
    change (s_M (compute_nl F1 s1)) with (s_M s1). change (s_M (compute_nl F2 s2)) with (s_M s2). rewrite (unit_M _ _ _ (g_rel _ _ _ G)).
    rewrite (times_convergence k _ X1 X2 F1 F2 Hk HX HF).
    assert (G' := good_compute k s1 s2 F1 F2 Hk G HF).
    destruct (xlt _ thr).
    + do 5 eexists. split; [reflexivity|]. split; [reflexivity|]. split; [exact T|]. split; [exact G'|]. split; reflexivity.
    + destruct (IHn (compute_nl F1 s1) (compute_nl F2 s2) X1 X2 G' HX) as (s1' & s2' & r1 & r2 & l & -> & -> & O & G2 & EM & EP).
      destruct r1 as [R1|]; destruct r2 as [R2|]; try contradiction;
        (do 5 eexists; split; [reflexivity|]; split; [reflexivity|]; split; [|split; [exact G2|split; [exact EM|exact EP]]]); assumption.
Qed.
Lemma unit_born s1 s2 E1 E2 thr n av s1' F1 conv : good k s1 s2 -> est_rel k (s_M s1) E1 E2 ->
  born_solve e E1 thr n av s1 = (s1', Ok (F1, conv)) ->
  exists s2' F2, born_solve e E2 thr n av s2 = (s2', Ok (F2, conv)) /\ times3 k (s_M s1) F1 F2 /\ good k s1' s2' /\
    s_M s1' = s_M s1 /\ s_pol s1' = s_pol s1.
Proof.
  intros G HE H. unfold born_solve in *. rewrite (u_pol _ _ _ (g_rel _ _ _ G)).
  destruct (start_field e (pol_comp (s_pol s1)) E1 s1) as [s3 [F0|]] eqn:Q; [|discriminate].
  destruct (unit_start s1 s2 E1 E2 s3 F0 G HE Q) as (s4 & G0 & -> & HF & G' & EM & EP).
  destruct (unit_born_loop thr n s3 s4 F0 G0 G') as (s5 & s6 & r1 & r2 & l & Q1 & Q2 & O & G2 & EM2 & EP2); [rewrite EM; exact HF|].
  rewrite Q1 in H. rewrite Q2. destruct r1 as [R1|]; destruct r2 as [R2|]; try contradiction; [|discriminate].
  injection H as <- <- <-. do 2 eexists. split; [reflexivity|]. rewrite EM in O. split; [exact O|]. split; [exact G2|].
  split; congruence.
Qed.
Lemma unit_residual s1 s2 E1 E2 r : good k s1 s2 -> times k (s_M s1) E1 E2 -> (r < s_M s1)%nat ->
  nl_residual s2 E2 r = (RtoC (k ^ 2) * nl_residual s1 E1 r)%C.
Proof.
  intros G HE Hr. assert (U := g_rel _ _ _ G).
  transitivity (mv (s_M s2) (nl_matrix s2 E2) E2 r - rhs s2 r)%C; [reflexivity|].
  transitivity (RtoC (k ^ 2) * (mv (s_M s1) (nl_matrix s1 E1) E1 r - rhs s1 r))%C; [|reflexivity].
  rewrite (unit_M _ _ _ U), (unit_nl_matrix k s1 s2 E1 E2 E2 r Hk U HE Hr), (unit_rhs k s1 s2 r U Hr).
  assert (HE': forall r, (r < s_M s1)%nat -> E2 r = vscal (RtoC k) E1 r) by exact HE.
  rewrite (mv_ext_v _ _ _ _ r HE'), mv_vscal. simpl. rewrite !RtoC_mult. ring.
Qed.
Lemma unit_jac s1 s2 E1 E2 x r : good k s1 s2 -> times k (s_M s1) E1 E2 -> (r < s_M s1)%nat ->
  mv (s_M s1) (nl_jac11 s2 E2) x r = (RtoC k * mv (s_M s1) (nl_jac11 s1 E1) x r)%C /\
  mv (s_M s1) (nl_jac12 s2 E2) x r = (RtoC k * mv (s_M s1) (nl_jac12 s1 E1) x r)%C.
Proof.
  intros G HE Hr. assert (U := g_rel _ _ _ G).
  assert (J1 := jac11_mv s2 E2 x r). assert (J2 := jac12_mv s2 E2 x r). rewrite (unit_M _ _ _ U) in J1, J2.
  rewrite (J1 Hr), (J2 Hr), (jac11_mv s1 E1 x r Hr), (jac12_mv s1 E1 x r Hr).
  rewrite (unit_eps_nl k s1 s2 E1 E2 r Hk U HE Hr), (unit_dnl_de k s1 s2 E1 E2 r Hk U HE Hr), (HE r Hr), (u_omega _ _ _ U), (u_L0 _ _ _ U).
  assert (A := u_A _ _ _ U x r Hr). unfold mv in A. rewrite A.
  rewrite !Cconj_mult, !Cconj_RtoC, !RtoC_mult, RtoC_inv by lra. assert (RtoC k <> RtoC 0) by (apply RtoC_neq0; lra).
  split; field; assumption.
Qed.

Lemma unit_widely s1 s2 E1 E2 : good k s1 s2 -> s_pol s1 = PolEz -> times k (s_M s1) E1 E2 ->
  widely_injective (s_M s1) (nl_jac11 s2 E2) (nl_jac12 s2 E2).
Proof.
  intros G Hp HE x Hx. apply (g_jac _ _ _ G Hp E1). intros r Hr. specialize (Hx r Hr).
  change (mv (s_M s1) (nl_jac11 s2 E2) x r + mv (s_M s1) (nl_jac12 s2 E2) (vconj x) r = RtoC 0)%C in Hx.
  change (mv (s_M s1) (nl_jac11 s1 E1) x r + mv (s_M s1) (nl_jac12 s1 E1) (vconj x) r = RtoC 0)%C.
  destruct (unit_jac s1 s2 E1 E2 x r G HE Hr) as [J1 _]. destruct (unit_jac s1 s2 E1 E2 (vconj x) r G HE Hr) as [_ J2].
  rewrite J1, J2 in Hx. replace (RtoC k * mv (s_M s1) (nl_jac11 s1 E1) x r + RtoC k * mv (s_M s1) (nl_jac12 s1 E1) (vconj x) r)%C
    with (RtoC k * (mv (s_M s1) (nl_jac11 s1 E1) x r + mv (s_M s1) (nl_jac12 s1 E1) (vconj x) r))%C in Hx by ring.
  apply Cmult_integral in Hx as [Hx|Hx]; [|exact Hx]. apply RtoC_inj in Hx. lra.
Qed.
Lemma unit_c2r s1 s2 E1 E2 d1 : good k s1 s2 -> s_pol s1 = PolEz -> times k (s_M s1) E1 E2 ->
  solver_complex2real e (s_M s1) (nl_jac11 s1 E1) (nl_jac12 s1 E1) (nl_residual s1 E1) (DEFAULT_SOLVER e) = Ok d1 ->
  exists d2, solver_complex2real e (s_M s1) (nl_jac11 s2 E2) (nl_jac12 s2 E2) (nl_residual s2 E2) (DEFAULT_SOLVER e) = Ok d2 /\
    times k (s_M s1) d1 d2.
Proof.
  intros G Hp HE H.
  assert (Hrun: exists d2, solver_complex2real e (s_M s1) (nl_jac11 s2 E2) (nl_jac12 s2 E2) (nl_residual s2 E2) (DEFAULT_SOLVER e) = Ok d2).
  { unfold solver_complex2real in *. destruct (all_zero (s_M s1) (nl_residual s2 E2)) eqn:Z2; [eexists; reflexivity|].
    destruct (all_zero (s_M s1) (nl_residual s1 E1)) eqn:Z1.
    - exfalso. assert (Z: all_zero (s_M s1) (nl_residual s2 E2) = true); [|congruence]. apply all_zero_spec. intros r Hr.
      rewrite (unit_residual s1 s2 E1 E2 r G HE Hr). rewrite (proj1 (all_zero_spec _ _) Z1 r Hr). ring.
    - destruct (DEFAULT_SOLVER e); try discriminate. destruct (e_pardiso e); [eexists; reflexivity|discriminate]. }
  destruct Hrun as [d2 H2]. exists d2. split; [exact H2|].
  assert (C1 := C28_complex2real_solves_widely_linear_system e _ _ _ _ _ Hre (g_jac _ _ _ G Hp E1) _ H).
  assert (C2 := C28_complex2real_solves_widely_linear_system e _ _ _ _ _ Hre (unit_widely s1 s2 E1 E2 G Hp HE) _ H2).
  assert (S1: widely_solves (s_M s1) (nl_jac11 s1 E1) (nl_jac12 s1 E1) d1 (nl_residual s1 E1)) by (apply C1; intros r Hr; reflexivity).
  assert (S2: veq (s_M s1) (vscal (RtoC k) d1) d2).
  { apply C2. intros r Hr.
    change (mv (s_M s1) (nl_jac11 s2 E2) (vscal (RtoC k) d1) r + mv (s_M s1) (nl_jac12 s2 E2) (vconj (vscal (RtoC k) d1)) r = nl_residual s2 E2 r)%C.
    specialize (S1 r Hr). change (mv (s_M s1) (nl_jac11 s1 E1) d1 r + mv (s_M s1) (nl_jac12 s1 E1) (vconj d1) r = nl_residual s1 E1 r)%C in S1.
    rewrite (unit_residual s1 s2 E1 E2 r G HE Hr), <- S1.
    destruct (unit_jac s1 s2 E1 E2 (vscal (RtoC k) d1) r G HE Hr) as [J1 _].
    destruct (unit_jac s1 s2 E1 E2 (vconj (vscal (RtoC k) d1)) r G HE Hr) as [_ J2]. rewrite J1, J2.
    rewrite (mv_ext_v _ (nl_jac12 s1 E1) (vconj (vscal (RtoC k) d1)) (vscal (RtoC k) (vconj d1))).
    - rewrite !mv_vscal. simpl. rewrite !RtoC_mult. ring.
    - intros c Hc. unfold vconj, vscal. rewrite Cconj_mult, Cconj_RtoC. reflexivity. }
  intros r Hr. rewrite <- (S2 r Hr). reflexivity.
Qed.
Lemma unit_newton_loop thr n : forall s1 s2 E1 E2 s1' X1 l, good k s1 s2 -> s_pol s1 = PolEz -> times k (s_M s1) E1 E2 ->
  newton_loop e thr n E1 s1 = (s1', Ok (X1, l)) ->
  exists s2' X2, newton_loop e thr n E2 s2 = (s2', Ok (X2, l)) /\ times k (s_M s1) X1 X2 /\ good k s1' s2' /\
    s_M s1' = s_M s1 /\ s_pol s1' = PolEz.
Proof.
  induction n; intros s1 s2 E1 E2 s1' X1 l G Hp HE H; cbn [newton_loop] in *.
  - injection H as <- <- <-. do 2 eexists. split; [reflexivity|]. split; [exact HE|]. split; [exact G|]. split; [reflexivity|exact Hp].
  - assert (U := g_rel _ _ _ G). unfold nl_eq_and_jac in *. rewrite (u_pol _ _ _ U), Hp in *.
    rewrite (u_size _ _ _ U), (unit_M _ _ _ U), (g_size _ _ _ G), Nat.eqb_refl in *.
    change (s_M (compute_nl E1 s1)) with (s_M s1) in *. change (s_M (compute_nl E2 s2)) with (s_M s2). rewrite (unit_M _ _ _ U).
    destruct (solver_complex2real e (s_M s1) (nl_jac11 s1 E1) _ _ _) as [d1|] eqn:Ed; [|discriminate].
    destruct (unit_c2r s1 s2 E1 E2 d1 G Hp HE Ed) as (d2 & -> & Hd).
    assert (HEn := times_minus k _ _ _ _ _ HE Hd).
    rewrite (times_convergence k _ _ _ _ _ Hk HEn HE).
    assert (G' := good_compute k s1 s2 E1 E2 Hk G HE).
    destruct (xlt _ thr).
    + injection H as <- <- <-. do 2 eexists. split; [reflexivity|]. split; [exact HEn|]. split; [exact G'|]. split; [reflexivity|exact Hp].
    + destruct (newton_loop e thr n (vminus E1 d1) (compute_nl E1 s1)) as [s3 [[Y l3]|]] eqn:Q; [|discriminate].
      injection H as <- <- <-.
      destruct (IHn (compute_nl E1 s1) (compute_nl E2 s2) _ _ _ _ _ G' Hp HEn Q) as (s4 & Y2 & -> & HY & G2 & EM & EP).
      do 2 eexists. split; [reflexivity|]. split; [exact HY|]. split; [exact G2|]. split; assumption.
Qed.
Lemma unit_newton s1 s2 E1 E2 thr n av s1' F1 conv : good k s1 s2 -> est_rel k (s_M s1) E1 E2 ->
  newton_solve e E1 thr n av s1 = (s1', Ok (F1, conv)) ->
  exists s2' F2, newton_solve e E2 thr n av s2 = (s2', Ok (F2, conv)) /\ times3 k (s_M s1) F1 F2 /\ good k s1' s2' /\
    s_M s1' = s_M s1 /\ s_pol s1' = s_pol s1.
Proof.
  intros G HE H. unfold newton_solve in *. rewrite (u_pol _ _ _ (g_rel _ _ _ G)). destruct (s_pol s1) eqn:Hp; [|discriminate].
  assert (Hst := unit_start s1 s2 E1 E2). rewrite Hp in Hst. cbn [pol_comp] in Hst.
  destruct (start_field e Ez E1 s1) as [s3 [F0|]] eqn:Q; [|discriminate].
  destruct (Hst s3 F0 G HE eq_refl) as (s4 & G0 & -> & HF & G' & EM & EP).
  destruct (newton_loop e thr n F0 s3) as [s5 [[E l]|]] eqn:Q1; [|discriminate].
  rewrite <- EM in HF.
  destruct (unit_newton_loop thr n s3 s4 F0 G0 s5 E l G' EP HF Q1) as (s6 & Y & -> & HY & G2 & EM2 & EP2).
  rewrite <- EM2 in HY.
  destruct (unit_solve_nl k e s5 s6 E Y Hk (g_rel _ _ _ G2) He HY (g_nl _ _ _ G2 E) (g_size _ _ _ G2)) as (R1 & R2 & E5 & E6 & T).
  rewrite E5 in H. rewrite E6. destruct n; [discriminate|]. injection H as <- <- <-.
  do 2 eexists. split; [reflexivity|]. rewrite EM2, EM in T. split; [exact T|].
  split; [apply good_compute; assumption|]. split; [change (s_M s5 = s_M s1); congruence|exact EP2].
Qed.
Lemma unit_run_solver s1 s2 E1 E2 name thr n av s1' F1 conv : good k s1 s2 -> est_rel k (s_M s1) E1 E2 ->
  name = "born"%string \/ name = "newton"%string \/ name = "hybrid"%string ->
  run_solver_nl e av E1 name thr n s1 = (s1', Ok (F1, conv)) ->
  exists s2' F2, run_solver_nl e av E2 name thr n s2 = (s2', Ok (F2, conv)) /\ times3 k (s_M s1) F1 F2 /\ good k s1' s2' /\
    s_M s1' = s_M s1 /\ s_pol s1' = s_pol s1.
Proof.
  intros G HE [-> | [-> | ->]] H; unfold run_solver_nl in *.
  - rewrite String.eqb_refl in *. eapply unit_born; eassumption.
  - change (String.eqb "newton" "born") with false in *. rewrite String.eqb_refl in *. cbv iota in *. eapply unit_newton; eassumption.
  - change (String.eqb "hybrid" "born") with false in *. change (String.eqb "hybrid" "newton") with false in *.
    change (String.eqb "hybrid" "LM") with false in *. change (String.eqb "hybrid" "krylov") with false in *.
    rewrite String.eqb_refl in *. cbv iota in *.
    destruct (born_solve e E1 thr 20 av s1) as [s3 [[F3 c3]|]] eqn:Q; [|discriminate].
    destruct (unit_born s1 s2 E1 E2 thr 20 av s3 F3 c3 G HE Q) as (s4 & F4 & -> & T & G2 & EM & EP).
    destruct (last_conv c3) as [c|]; [|discriminate]. destruct (xgt c _).
    + assert (HE2: est_rel k (s_M s3) (Some (snd F3)) (Some (snd F4))) by (rewrite EM; apply T).
      destruct (unit_newton s3 s4 _ _ thr 20 av s1' F1 conv G2 HE2 H) as (s6 & F6 & -> & T6 & G6 & EM6 & EP6).
      do 2 eexists. split; [reflexivity|]. rewrite EM in T6. split; [exact T6|]. split; [exact G6|]. split; congruence.
    + injection H as <- <- <-. do 2 eexists. split; [reflexivity|]. split; [exact T|]. split; [exact G2|]. split; assumption.
Qed.
Lemma unit_solve_fields_nl s1 s2 E1 E2 name thr n av s1' F1 conv : good k s1 s2 -> est_rel k (s_M s1) E1 E2 ->
  name = "born"%string \/ name = "newton"%string \/ name = "hybrid"%string ->
  solve_fields_nl e av E1 name thr n s1 = (s1', Ok (F1, conv)) ->
  exists s2' F2, solve_fields_nl e av E2 name thr n s2 = (s2', Ok (F2, conv)) /\ times3 k (s_M s1) F1 F2 /\ good k s1' s2' /\
    s_M s1' = s_M s1.
Proof.
  intros G HE Hn H. unfold solve_fields_nl in *.
  destruct (run_solver_nl e av E1 name thr n s1) as [s3 [[F3 c3]|]] eqn:Q; [|discriminate]. injection H as <- <- <-.
  destruct (unit_run_solver s1 s2 E1 E2 name thr n av s3 F3 c3 G HE Hn Q) as (s4 & F4 & -> & T & G2 & EM & EP).
  do 2 eexists. split; [reflexivity|]. split; [exact T|]. split; [|exact EM].
  destruct G2 as [H1 H2 H3 H4 H5 H6 H7]. constructor; try assumption. apply unit_upd_fields_nl; assumption.
Qed.
Lemma unit_index_shift s1 s2 s1' v1 : good k s1 s2 -> compute_index_shift e s1 = (s1', Ok v1) ->
  exists s2' v2, compute_index_shift e s2 = (s2', Ok v2) /\ forall r, (r < s_M s1)%nat -> v2 r = v1 r.
Proof.
  intros G H. unfold compute_index_shift, bind in *.
  destruct (solve_fields e false false s1) as [s3 [F|]] eqn:Q; [|discriminate].
  destruct (unit_solve_lin k e false s1 s2 s3 F Hk (g_rel _ _ _ G) He (g_A _ _ _ G) Q) as (s4 & F4 & Q4 & T & U & FF1 & FF2).
  rewrite Q4. assert (G3: good k s3 s4 /\ s_M s3 = s_M s1).
  { destruct F as [[a b] X]. destruct (solve_fields_lin e false s1 (g_size _ _ _ G)) as (X1' & _ & R). cbv zeta in R. rewrite R in Q. injection Q as <- _ _ _.
    destruct (solve_fields_lin e false s2) as (X2' & _ & R2); [rewrite (u_size _ _ _ (g_rel _ _ _ G)), (unit_M _ _ _ (g_rel _ _ _ G)); apply (g_size _ _ _ G)|].
    cbv zeta in R2. rewrite R2 in Q4. injection Q4 as <- _.
    split; [|reflexivity]. destruct G as [H1 H2 H3 H4 H5 H6 H7]. constructor; try assumption.
    change (s_pol (upd_fields _ s1)) with (s_pol s1). rewrite FF1, FF2. apply T. }
  destruct G3 as [G3 EM]. unfold solve_fields_nl_default in *.
  destruct (solve_fields_nl e false None "hybrid" (1 / 10 ^ 10) 50 s3) as [s5 [[F5 c5]|]] eqn:Q5; [|discriminate].
  destruct (unit_solve_fields_nl s3 s4 None None "hybrid" (1 / 10 ^ 10) 50 false s5 F5 c5 G3 I ltac:(auto) Q5) as (s6 & F6 & -> & T6 & G6 & EM6).
  unfold getS, ret in *. injection H as <- <-. do 2 eexists. split; [reflexivity|].
  intros r Hr. cbv beta. rewrite (u_eps _ _ _ (g_rel _ _ _ G6)). rewrite (g_eps_nl _ _ _ G6) by congruence. reflexivity.
Qed.
End Solvers.
(* ------------------------------------------------------------------ *)
(** ** constructing the two simulations *)
Lemma unit_A k omega L0 Nx Ny NPML dl p (eps : vec) x r : (0 < k)%R -> (0 < dl)%R -> (0 < omega)%R -> (0 < L0)%R ->
  (2 <= Nx)%nat -> (2 <= Ny)%nat -> (r < Nx * Ny)%nat ->
  let xr := (0, INR Nx * dl)%R in let yr := (0, INR Ny * dl)%R in
  let xr' := (0, INR Nx * (dl / k))%R in let yr' := (0, INR Ny * (dl / k))%R in
  mv (Nx * Ny) (fst (construct_A omega xr' yr' Nx Ny eps NPML p (k * L0) true)) x r =
    (RtoC k * mv (Nx * Ny) (fst (construct_A omega xr yr Nx Ny eps NPML p L0 true)) x r)%C /\
  (forall w sd, mv (Nx * Ny) (make_deriv w sd omega (k * L0) Nx Ny NPML xr' yr') x r =
    (RtoC k * mv (Nx * Ny) (make_deriv w sd omega L0 Nx Ny NPML xr yr) x r)%C).
Proof.
  intros Hk Hdl Ho HL HNx HNy Hr xr yr xr' yr'.
  assert (HX: (0 < INR Nx)%R) by (apply lt_0_INR; lia). assert (HY: (0 < INR Ny)%R) by (apply lt_0_INR; lia).
  assert (D1: dL Nx Ny xr yr = (dl, dl)) by (apply dL_new; lia).
  assert (D2: dL Nx Ny xr' yr' = (dl / k, dl / k)%R) by (apply dL_new; lia).
  assert (Hdk: (0 < dl / k)%R) by (apply Rdiv_lt_0_compat; assumption).
  assert (RtoC k <> RtoC 0) by (apply RtoC_neq0; lra). assert (HMU := MU_0_pos).
  assert (Ex: xr' = (0 / k, INR Nx * dl / k)%R) by (unfold xr'; f_equal; field; lra).
  assert (Ey: yr' = (0 / k, INR Ny * dl / k)%R) by (unfold yr'; f_equal; field; lra).
  assert (P1: (0 < INR Nx * dl)%R) by (apply Rmult_lt_0_compat; assumption).
  assert (P2: (0 < INR Ny * dl)%R) by (apply Rmult_lt_0_compat; assumption).
  destruct (pix_bound _ _ _ Hr) as (i & j & Hi & Hj & ->).
  assert (PX: forall sd u c, pax sd omega (k * L0) xr' (dl / k) Nx (fst NPML) u c = (RtoC k * pax sd omega L0 xr dl Nx (fst NPML) u c)%C).
  { intros. rewrite Ex. apply pax_unit; assumption || lra. }
  assert (PY: forall sd u c, pax sd omega (k * L0) yr' (dl / k) Ny (snd NPML) u c = (RtoC k * pax sd omega L0 yr dl Ny (snd NPML) u c)%C).
  { intros. rewrite Ey. apply pax_unit; assumption || lra. }
  split.
  - rewrite !A_grid by (rewrite ?D1, ?D2; cbn [fst snd]; (assumption || lra)). rewrite D1, D2. cbn [fst snd].
    rewrite PX, PY.
    assert (GX: forall c, (c < Nx)%nat -> Ax_g (k * L0) Nx Ny p true eps (pix Ny c j) = (RtoC (/ k) * Ax_g L0 Nx Ny p true eps (pix Ny c j))%C).
    { intros c Hc. unfold Ax_g. destruct p.
      - rewrite <- RtoC_mult. f_equal. field. lra.
      - rewrite (eps_dir_unit AxX true k L0 Nx Ny eps eps) by (try (apply flat_lt; assumption); reflexivity). apply Cinv_scal_zero; lra. }
    assert (GY: forall c, (c < Ny)%nat -> Ay_g (k * L0) Nx Ny p true eps (pix Ny i c) = (RtoC (/ k) * Ay_g L0 Nx Ny p true eps (pix Ny i c))%C).
    { intros c Hc. unfold Ay_g. destruct p.
      - rewrite <- RtoC_mult. f_equal. field. lra.
      - rewrite (eps_dir_unit AxY true k L0 Nx Ny eps eps) by (try (apply flat_lt; assumption); reflexivity). apply Cinv_scal_zero; lra. }
    assert (GD: Ad_g omega (k * L0) p eps (pix Ny i j) = (RtoC k * Ad_g omega L0 p eps (pix Ny i j))%C).
    { unfold Ad_g. destruct p; rewrite !RtoC_mult; ring. }
    rewrite GD.
    rewrite (pax_ext _ omega L0 xr dl Nx (fst NPML) _ (fun c => RtoC 1 * (Ax_g L0 Nx Ny p true eps (pix Ny c j) * pax Bwd omega L0 xr dl Nx (fst NPML) (fun c' : nat => x (pix Ny c' j)) c))%C i Hi).
    2:{ intros c Hc. rewrite PX, GX by assumption. rewrite RtoC_inv by lra. field. assumption. }
    rewrite (pax_ext _ omega L0 yr dl Ny (snd NPML) _ (fun c => RtoC 1 * (Ay_g L0 Nx Ny p true eps (pix Ny i c) * pax Bwd omega L0 yr dl Ny (snd NPML) (fun c' : nat => x (pix Ny i c')) c))%C j Hj).
    2:{ intros c Hc. rewrite PY, GY by assumption. rewrite RtoC_inv by lra. field. assumption. }
    rewrite !(pax_scal _ _ _ _ dl) by lra. ring.
  - intros w sd. destruct w.
    + rewrite !DDx_grid by (rewrite ?D1, ?D2; cbn [fst snd]; (assumption || lra)). rewrite D1, D2. cbn [fst snd]. apply PX.
    + rewrite !DDy_grid by (rewrite ?D1, ?D2; cbn [fst snd]; (assumption || lra)). rewrite D1, D2. cbn [fst snd]. apply PY.
Qed.
Lemma kerr_coef_app l1 l2 r x : kerr_coef (l1 ++ l2) r x = (kerr_coef l1 r x + kerr_coef l2 r x)%R.
Proof. unfold kerr_coef. induction l1; simpl; [ring|]. rewrite IHl1. ring. Qed.
Definition is_add_nl (o : op) : Prop := exists chi region ty es em, o = AddNl chi region ty es em.
Lemma unit_add_nl e k s1 s2 o : (0 < k)%R -> unit_rel k s1 s2 -> is_add_nl o -> unit_rel k (run_op e o s1) (run_op e o s2) /\
  s_fields (run_op e o s1) = s_fields s1 /\ s_fields (run_op e o s2) = s_fields s2 /\
  s_eps_nl (run_op e o s1) = s_eps_nl s1 /\ s_eps_nl (run_op e o s2) = s_eps_nl s2 /\ s_M (run_op e o s1) = s_M s1.
Proof.
  intros Hk U (chi & region & ty & es & em & ->). cbn [run_op]. unfold add_nl, bind, getS, lift, putS.
  unfold Nonlinearity. destruct (String.eqb ty "kerr"); [|simpl; auto 10]. assert (HL := u_L0_pos _ _ _ U).
  assert (X: forall esx emx, unit_rel k (upd_nl (s_nl s1 ++ [mkNonlin (chi / s_L0 s1 ^ 2) region esx emx]) s1)
                               (upd_nl (s_nl s2 ++ [mkNonlin (chi / s_L0 s2 ^ 2) region esx emx]) s2)).
  { intros esx emx. destruct U. constructor; try assumption. intro r. cbn [upd_nl s_nl s_eps]. rewrite !kerr_coef_app, u_nl0.
    unfold kerr_coef at 2 4. cbn [fold_right nl_chi nl_region]. unfold nl_scale. cbn [nl_eps_scale nl_eps_max].
    rewrite u_eps0, u_L1. 
    field; lra. }
  destruct es; [destruct em|]; simpl; auto 10.
Qed.
Lemma unit_adds e k l : forall s1 s2, (0 < k)%R -> List.Forall is_add_nl l -> unit_rel k s1 s2 ->
  unit_rel k (run_ops e l s1) (run_ops e l s2) /\
  s_fields (run_ops e l s1) = s_fields s1 /\ s_fields (run_ops e l s2) = s_fields s2 /\
  s_eps_nl (run_ops e l s1) = s_eps_nl s1 /\ s_eps_nl (run_ops e l s2) = s_eps_nl s2 /\ s_M (run_ops e l s1) = s_M s1.
Proof.
  induction l as [|o l IH]; intros s1 s2 Hk HF U; [cbn; auto 10|]. inversion HF as [|? ? Ho HF']; subst.
  destruct (unit_add_nl e k s1 s2 o Hk U Ho) as (U' & E1 & E2 & E3 & E4 & E5).
  destruct (IH _ _ Hk HF' U') as (U2 & A1 & A2 & A3 & A4 & A5). unfold run_ops in *. cbn [fold_left].
  split; [exact U2|]. repeat split; congruence.
Qed.
Lemma set_eps_A eps s : nd_nx eps = s_Nx s -> nd_ny eps = s_Ny s ->
  s_A (set_eps eps s) = fst (construct_A (s_omega s) (s_xrange s) (s_yrange s) (s_Nx s) (s_Ny s) (cvec (nd_buf eps)) (s_NPML s) (s_pol s) (s_L0 s) true).
Proof. intros H1 H2. unfold set_eps. cbn [s_A]. rewrite H1, H2. reflexivity. Qed.
Lemma unit_init omega eps dl np p L0 k a1 a2 : (0 < k)%R -> (0 < dl)%R -> (2 <= nd_nx eps)%nat -> (2 <= nd_ny eps)%nat ->
  Simulation omega eps dl np p L0 = Ok a1 -> Simulation omega eps (dl / k) np p (k * L0) = Ok a2 ->
  unit_rel k a1 a2 /\ (forall c, s_fields a1 c = None) /\ (forall c, s_fields a2 c = None) /\
  (forall r, s_eps_nl a1 r = 0%R) /\ (forall r, s_eps_nl a2 r = 0%R) /\ s_M a1 = (nd_nx eps * nd_ny eps)%nat /\ s_nl a1 = [].
Proof.
  intros Hk Hdl HNx HNy H1 H2.
  destruct (Simulation_fields _ _ _ _ _ _ _ H1) as (O1 & L1 & X1 & Y1 & _ & _ & _ & _ & Ho & HL & _ & _ & _ & F1).
  destruct (Simulation_fields _ _ _ _ _ _ _ H2) as (O2 & L2 & X2 & Y2 & _ & _ & _ & _ & _ & _ & _ & _ & _ & F2).
  unfold Simulation in H1, H2. destruct (check_inputs L0 omega np p); [|discriminate]. destruct (check_inputs (k * L0) omega np p); [|discriminate].
  cbv zeta in H1, H2. injection H1 as <-. injection H2 as <-.
  set (NP := match np with Some [a; b] => (Z.to_nat a, Z.to_nat b) | _ => (0, 0)%nat end) in *.
  set (po := if String.eqb p "Ez" then PolEz else PolHz) in *.
  split; [|split; [exact F1|split; [exact F2|split; [reflexivity|split; [reflexivity|split; reflexivity]]]]].
  constructor; try assumption; try reflexivity.
  - intros x r Hr. change (s_M _) with (nd_nx eps * nd_ny eps)%nat in Hr. change (s_M _) with (nd_nx eps * nd_ny eps)%nat.
    rewrite !set_eps_A by reflexivity. cbn [s_omega s_xrange s_yrange s_Nx s_Ny s_NPML s_pol s_L0].
    apply (unit_A k omega L0 _ _ NP dl po (cvec (nd_buf eps)) x r); assumption.
  - intros x r Hr. change (s_M _) with (nd_nx eps * nd_ny eps)%nat in Hr. change (s_M _) with (nd_nx eps * nd_ny eps)%nat.
    destruct (unit_A k omega L0 (nd_nx eps) (nd_ny eps) NP dl po (cvec (nd_buf eps)) x r Hk Hdl Ho HL HNx HNy Hr) as [_ Q].
    destruct po; exact (Q AxX Bwd).
  - intros x r Hr. change (s_M _) with (nd_nx eps * nd_ny eps)%nat in Hr. change (s_M _) with (nd_nx eps * nd_ny eps)%nat.
    destruct (unit_A k omega L0 (nd_nx eps) (nd_ny eps) NP dl po (cvec (nd_buf eps)) x r Hk Hdl Ho HL HNx HNy Hr) as [_ Q].
    destruct po; exact (Q AxY Bwd).
  - intro r. cbn. field. lra.
  - intros r Hr. cbn. apply C_ext; unfold Re, Im; simpl; ring.
Qed.
Lemma run_ops_last e l o s : run_ops e (l ++ [o]) s = run_op e o (run_ops e l s).
Proof. unfold run_ops. rewrite fold_left_app. reflexivity. Qed.
Lemma unit_setup e omega eps dl np p L0 k adds src1 src2 a1 a2 :
  (0 < k)%R -> (0 < dl)%R -> (2 <= nd_nx eps)%nat -> (2 <= nd_ny eps)%nat ->
  Simulation omega eps dl np p L0 = Ok a1 -> Simulation omega eps (dl / k) np p (k * L0) = Ok a2 ->
  List.Forall is_add_nl adds ->
  nd_nx src1 = nd_nx eps -> nd_ny src1 = nd_ny eps -> nd_nx src2 = nd_nx eps -> nd_ny src2 = nd_ny eps ->
  (forall r, (r < nd_nx eps * nd_ny eps)%nat -> nd_buf src2 r = (RtoC (k ^ 2) * nd_buf src1 r)%C) ->
  let s1 := run_ops e (adds ++ [SetSrc src1]) a1 in let s2 := run_ops e (adds ++ [SetSrc src2]) a2 in
  unit_rel k s1 s2 /\ (forall c, s_fields s1 c = None) /\ (forall c, s_fields s2 c = None) /\
  (forall r, s_eps_nl s1 r = 0%R) /\ (forall r, s_eps_nl s2 r = 0%R) /\ s_M s1 = (nd_nx eps * nd_ny eps)%nat /\ nd_size (s_src s1) = s_M s1.
Proof.
  intros Hk Hdl HNx HNy H1 H2 HF A1 B1 A2 B2 HS s1 s2.
  destruct (unit_init _ _ _ _ _ _ _ _ _ Hk Hdl HNx HNy H1 H2) as (U & F1 & F2 & E1 & E2 & EM & _).
  destruct (unit_adds e k adds a1 a2 Hk HF U) as (U' & F1' & F2' & E1' & E2' & EM').
  unfold s1, s2. rewrite !run_ops_last. cbn [run_op].
  split.
  - destruct U'. constructor; try assumption.
    + cbn [upd_src s_src]. unfold nd_size. rewrite A1, A2, B1, B2. reflexivity.
    + intros r Hr. cbn [upd_src s_src]. apply HS. change (s_M (upd_src _ ?x)) with (s_M x) in Hr. rewrite EM', EM in Hr. exact Hr.
  - split; [intro c; cbn [upd_src s_fields]; rewrite F1'; apply F1|]. split; [intro c; cbn [upd_src s_fields]; rewrite F2'; apply F2|].
    split; [intro c; cbn [upd_src s_eps_nl]; rewrite E1'; apply E1|]. split; [intro c; cbn [upd_src s_eps_nl]; rewrite E2'; apply E2|].
    change (s_M (upd_src src1 ?x)) with (s_M x). split; [congruence|]. cbn [upd_src s_src]. unfold nd_size. rewrite A1, B1. congruence.
Qed.

(* ------------------------------------------------------------------ *)
(** * C82: the choice of the length unit *)
(** the same device described in two length units: the second run measures
    lengths in a unit k times longer, so its pixel size is dl/k and its L0 is
    k times larger; the permittivity, the frequency, the PML, the polarization
    and the added Kerr materials (chi, region, ...) are the same calls; the
    source array is multiplied by k^2 *)
Record same_device (e : env) (k : R) (s1 s2 : sim) (Nx Ny : nat) : Prop := {
  sd_k : (0 < k)%R;
  sd_build : exists omega eps dl np p L0 adds src1 src2 a1 a2,
    (0 < dl)%R /\ nd_nx eps = Nx /\ nd_ny eps = Ny /\ (2 <= Nx)%nat /\ (2 <= Ny)%nat /\
    Simulation omega eps dl np p L0 = Ok a1 /\ Simulation omega eps (dl / k) np p (k * L0) = Ok a2 /\
    List.Forall is_add_nl adds /\
    nd_nx src1 = Nx /\ nd_ny src1 = Ny /\ nd_nx src2 = Nx /\ nd_ny src2 = Ny /\
    (forall r, (r < Nx * Ny)%nat -> nd_buf src2 r = (RtoC (k ^ 2) * nd_buf src1 r)%C) /\
    s1 = run_ops e (adds ++ [SetSrc src1]) a1 /\ s2 = run_ops e (adds ++ [SetSrc src2]) a2 }.
Lemma same_device_rel e k s1 s2 Nx Ny : same_device e k s1 s2 Nx Ny ->
  unit_rel k s1 s2 /\ (forall c, s_fields s1 c = None) /\ (forall c, s_fields s2 c = None) /\
  (forall r, s_eps_nl s1 r = 0%R) /\ (forall r, s_eps_nl s2 r = 0%R) /\ s_M s1 = (Nx * Ny)%nat /\ nd_size (s_src s1) = s_M s1.
Proof.
  intros [Hk (omega & eps & dl & np & p & L0 & adds & src1 & src2 & a1 & a2 & Hdl & EX & EY & HX & HY & H1 & H2 & HF & A1 & B1 & A2 & B2 & HS & -> & ->)].
  subst Nx Ny. apply (unit_setup e omega eps dl np p L0 k adds src1 src2 a1 a2); assumption.
Qed.
(** linear solve: every component of the second run is k times the one of the
    first, for both values of averaging *)
Theorem C82_units_linear : forall e k s1 s2 Nx Ny av,
  same_device e k s1 s2 Nx Ny -> solver_exact e -> nonsingular (s_M s1) (s_A s1) ->
  exists s1' s2' F1 F2, solve_fields e false av s1 = (s1', Ok F1) /\ solve_fields e false av s2 = (s2', Ok F2) /\
    forall r, (r < Nx * Ny)%nat ->
      fst (fst F2) r = (RtoC k * fst (fst F1) r)%C /\ snd (fst F2) r = (RtoC k * snd (fst F1) r)%C /\ snd F2 r = (RtoC k * snd F1 r)%C.
Proof.
  intros e k s1 s2 Nx Ny av D He HA. destruct (same_device_rel _ _ _ _ _ _ D) as (U & _ & _ & _ & _ & EM & Hsz).
  destruct (solve_fields_lin e av s1 Hsz) as (X & _ & Q). cbv zeta in Q.
  match type of Q with _ = (?a, Ok ?F) => destruct (unit_solve_lin k e av s1 s2 a F (sd_k _ _ _ _ _ _ D) U He HA Q) as (s2' & F2 & Q2 & T & _);
    exists a, s2', F, F2 end.
  split; [exact Q|]. split; [exact Q2|]. intros r Hr. rewrite <- EM in Hr. destruct T as (T1 & T2 & T3).
  split; [apply T1; exact Hr|]. split; [apply T2; exact Hr|apply T3; exact Hr].
Qed.
Lemma same_device_good e k s1 s2 Nx Ny : same_device e k s1 s2 Nx Ny -> 
  (forall F, nonsingular (s_M s1) (nl_matrix s1 F)) ->
  (s_pol s1 = PolEz -> forall E, widely_injective (s_M s1) (nl_jac11 s1 E) (nl_jac12 s1 E)) -> good k s1 s2.
Proof.
  intros D HN HJ. destruct (same_device_rel _ _ _ _ _ _ D) as (U & F1 & F2 & E1 & E2 & EM & Hsz).
  constructor; try assumption.
  - rewrite F1, F2. exact I.
  - apply (nonsingular_ext _ (nl_matrix s1 (fun _ => RtoC 0))); [|apply HN].
    intros i j Hi Hj. unfold nl_matrix, mplus, mdiag. cbn [compute_nl upd_nlvals s_eps_nl]. 
    destruct (Nat.eqb i j); [|ring]. rewrite sum_eps_nl_coef. 
    replace (Cnorm2 (RtoC 0)) with 0%R by (unfold Cnorm2, RtoC; simpl; ring). 
    rewrite Rmult_0_r, Rmult_0_r. ring.
  - intros r Hr. rewrite E1, E2. reflexivity.
Qed.
(** nonlinear solve: same convergence record, every component multiplied by k *)
Theorem C82_units_nonlinear : forall e k s1 s2 Nx Ny av E1 E2 name thr n s1' F1 conv,
  same_device e k s1 s2 Nx Ny -> solver_exact e -> real_solver_exact e ->
  (forall F, nonsingular (s_M s1) (nl_matrix s1 F)) ->
  (s_pol s1 = PolEz -> forall E, widely_injective (s_M s1) (nl_jac11 s1 E) (nl_jac12 s1 E)) ->
  match E1, E2 with
  | None, None => True
  | Some v1, Some v2 => forall r, (r < Nx * Ny)%nat -> v2 r = (RtoC k * v1 r)%C
  | _, _ => False
  end ->
  name = "born"%string \/ name = "newton"%string \/ name = "hybrid"%string ->
  solve_fields_nl e av E1 name thr n s1 = (s1', Ok (F1, conv)) ->
  exists s2' F2, solve_fields_nl e av E2 name thr n s2 = (s2', Ok (F2, conv)) /\
    forall r, (r < Nx * Ny)%nat ->
      fst (fst F2) r = (RtoC k * fst (fst F1) r)%C /\ snd (fst F2) r = (RtoC k * snd (fst F1) r)%C /\ snd F2 r = (RtoC k * snd F1 r)%C.
Proof.
  intros e k s1 s2 Nx Ny av E1 E2 name thr n s1' F1 conv D He Hre HN HJ HE Hn H.
  assert (EM: s_M s1 = (Nx * Ny)%nat) by apply (same_device_rel _ _ _ _ _ _ D).
  destruct (unit_solve_fields_nl k e (sd_k _ _ _ _ _ _ D) He Hre s1 s2 E1 E2 name thr n av s1' F1 conv) as (s2' & F2 & Q2 & T & _); try assumption.
  - apply (same_device_good e k s1 s2 Nx Ny); assumption.
  - unfold est_rel, times. rewrite EM. destruct E1, E2; exact HE.
  - exists s2', F2. split; [exact Q2|]. intros r Hr. rewrite <- EM in Hr. destruct T as (T1 & T2 & T3).
    split; [apply T1; exact Hr|]. split; [apply T2; exact Hr|apply T3; exact Hr].
Qed.
(** compute_index_shift returns the same refractive index change in both units *)
Theorem C82_units_index_shift : forall e k s1 s2 Nx Ny s1' v1,
  same_device e k s1 s2 Nx Ny -> solver_exact e -> real_solver_exact e ->
  (forall F, nonsingular (s_M s1) (nl_matrix s1 F)) ->
  (s_pol s1 = PolEz -> forall E, widely_injective (s_M s1) (nl_jac11 s1 E) (nl_jac12 s1 E)) ->
  compute_index_shift e s1 = (s1', Ok v1) ->
  exists s2' v2, compute_index_shift e s2 = (s2', Ok v2) /\ forall r, (r < Nx * Ny)%nat -> v2 r = v1 r.
Proof.
  intros e k s1 s2 Nx Ny s1' v1 D He Hre HN HJ H.
  assert (EM: s_M s1 = (Nx * Ny)%nat) by apply (same_device_rel _ _ _ _ _ _ D). rewrite <- EM.
  apply (unit_index_shift k e (sd_k _ _ _ _ _ _ D) He Hre s1 s2 s1' v1); [|assumption].
  apply (same_device_good e k s1 s2 Nx Ny); assumption.
Qed.
(** Along an axis of one pixel the code's derivative matrix is the identity, without the pixel
    size, so a one-pixel device does depend on the length unit: whatever the exact solver, the
    frequency, the permittivity x > 0, the pixel size and the source v <> 0, the fields of the two runs are
    not in the ratio k unless k = 1. *)
Lemma one_pixel_A omega dl L0 x v : (0 < dl)%R -> (0 < omega)%R -> (0 < L0)%R ->
  mv 1 (fst (construct_A omega (0, INR 1 * dl)%R (0, INR 1 * dl)%R 1 1 (fun _ => RtoC x) (0, 0)%nat PolEz L0 true)) v 0%nat =
  (RtoC (2 / (MU_0 * L0) + omega ^ 2 * (EPSILON_0 * L0) * x) * v 0%nat)%C.
Proof.
  intros Hdl Ho HL. assert (D: dL 1 1 (0, INR 1 * dl)%R (0, INR 1 * dl)%R = (dl, dl)) by (apply dL_new; lia).
  assert (HMU := MU_0_pos).
  assert (G := A_grid omega L0 1 1 (0, 0)%nat (0, INR 1 * dl)%R (0, INR 1 * dl)%R).
  rewrite D in G. cbn [fst snd] in G. specialize (G ltac:(lra) ltac:(lra) (fun _ => RtoC x) PolEz true v 0%nat 0%nat ltac:(lia) ltac:(lia)).
  change (pix 1 0 0) with 0%nat in G. change (1 * 1)%nat with 1%nat in G. rewrite G. clear G.
  rewrite !pax_no_pml. unfold ax. cbn [Nat.ltb Nat.leb]. rewrite !pax_no_pml. unfold ax. cbn [Nat.ltb Nat.leb].
  unfold Ax_g, Ay_g, Ad_g. change (pix 1 0 0) with 0%nat. 
  replace (2 / (MU_0 * L0))%R with (1 / (MU_0 * L0) + 1 / (MU_0 * L0))%R by (field; lra).
  rewrite !RtoC_plus, !RtoC_mult. ring.
Qed.
Theorem C82_one_pixel_refuted : forall e omega x dl L0 k (v : C) a1 a2,
  solver_exact e -> (0 < k)%R -> k <> 1%R -> (0 < dl)%R -> (0 < x)%R -> v <> RtoC 0 ->
  Simulation omega (mkNd 1 1 (fun _ => x)) dl (Some [0; 0]%Z) "Ez" L0 = Ok a1 ->
  Simulation omega (mkNd 1 1 (fun _ => x)) (dl / k) (Some [0; 0]%Z) "Ez" (k * L0) = Ok a2 ->
  exists s1 s2 F1 F2,
    solve_fields e false true (upd_src (mkNd 1 1 (fun _ => v)) a1) = (s1, Ok F1) /\
    solve_fields e false true (upd_src (mkNd 1 1 (fun _ => (RtoC (k ^ 2) * v)%C)) a2) = (s2, Ok F2) /\
    snd F2 0%nat <> (RtoC k * snd F1 0%nat)%C.
Proof.
  intros e omega x dl L0 k v a1 a2 He Hk Hk1 Hdl Hx Hv H1 H2.
  assert (HMU := MU_0_pos). assert (HEP := EPSILON_0_pos).
  assert (Hdk: (0 < dl / k)%R) by (apply Rdiv_lt_0_compat; assumption).
  assert (key: forall d L w a, (0 < d)%R -> Simulation omega (mkNd 1 1 (fun _ => x)) d (Some [0; 0]%Z) "Ez" L = Ok a ->
    (0 < omega)%R /\ (0 < L)%R /\
    exists s F, solve_fields e false true (upd_src (mkNd 1 1 (fun _ => w)) a) = (s, Ok F) /\
    (RtoC (2 / (MU_0 * L) + omega ^ 2 * (EPSILON_0 * L) * x) * snd F 0%nat = Ci * RtoC omega * w)%C).
  { intros d L w a Hd HS. destruct (Simulation_fields _ _ _ _ _ _ _ HS) as (O & L' & _ & _ & _ & _ & _ & _ & Ho & HL & _).
    split; [exact Ho|]. split; [exact HL|].
    assert (EM: s_M a = 1%nat /\ s_A a = fst (construct_A omega (0, INR 1 * d)%R (0, INR 1 * d)%R 1 1 (fun _ => RtoC x) (0, 0)%nat PolEz L true)).
    { unfold Simulation in HS. destruct (check_inputs L omega (Some [0; 0]%Z) "Ez"); [|discriminate]. cbv zeta in HS. injection HS as <-. split; reflexivity. }
    destruct EM as [EM EA]. set (b := upd_src (mkNd 1 1 (fun _ => w)) a).
    destruct (solve_fields_lin e true b) as (X & _ & Q); [cbn [b upd_src s_src]; change (s_M b) with (s_M a); rewrite EM; reflexivity|].
    cbv zeta in Q. do 2 eexists. split; [exact Q|]. cbn [snd].
    assert (NS: nonsingular (s_M b) (s_A b)).
    { change (s_M b) with (s_M a). change (s_A b) with (s_A a). rewrite EM. apply injective_nonsingular. intros y Hy j Hj.
      assert (j = 0)%nat by lia. subst j. assert (Z := Hy 0%nat ltac:(lia)). rewrite EA in Z. 
      change (mv 1 (fst (construct_A omega (0, INR 1 * d)%R (0, INR 1 * d)%R 1 1 (fun _ => RtoC x) (0, 0)%nat PolEz L true)) y 0%nat = RtoC 0) in Z.
      rewrite one_pixel_A in Z by assumption. apply Cmult_integral in Z. destruct Z as [Z|Z]; [|exact Z]. exfalso. revert Z. apply RtoC_neq0.
      apply Rgt_not_eq. apply Rplus_lt_0_compat; [apply Rdiv_lt_0_compat; [lra|apply Rmult_lt_0_compat; lra]|].
      repeat apply Rmult_lt_0_compat; assumption || lra. }
    assert (Z := solve_fields_solves e false true b _ _ _ _ He NS Q 0%nat). cbn [used_matrix] in Z. 
    change (s_M b) with (s_M a) in Z. rewrite EM in Z. specialize (Z ltac:(lia)).
    change (mv 1 (s_A a) X 0%nat = rhs b 0%nat) in Z. rewrite EA, one_pixel_A in Z by assumption. rewrite Z.
    unfold rhs. cbn [b upd_src s_src s_omega nd_buf]. rewrite O. ring. }
  destruct (key dl L0 v a1 Hdl H1) as (Ho & HL & s1 & F1 & Q1 & Z1).
  destruct (key (dl / k)%R (k * L0)%R (RtoC (k ^ 2) * v)%C a2 Hdk H2) as (_ & _ & s2 & F2 & Q2 & Z2).
  exists s1, s2, F1, F2. split; [exact Q1|]. split; [exact Q2|]. intro E. rewrite E in Z2.
  assert (RtoC k <> RtoC 0) by (apply RtoC_neq0; lra).
  assert (HF: snd F1 0%nat <> RtoC 0).
  { intro Q. rewrite Q in Z1. rewrite Cmult_0_r in Z1. symmetry in Z1. apply Cmult_integral in Z1. destruct Z1 as [Z1|Z1]; [|contradiction].
    apply Cmult_integral in Z1. destruct Z1 as [Z1|Z1]; [exact (Ci_neq0 Z1)|]. revert Z1. apply RtoC_neq0; lra. }
  assert (EQ: (RtoC k * snd F1 0%nat * (RtoC (2 / (MU_0 * (k * L0)) + omega ^ 2 * (EPSILON_0 * (k * L0)) * x) - RtoC k * RtoC (2 / (MU_0 * L0) + omega ^ 2 * (EPSILON_0 * L0) * x)) = RtoC 0)%C).
  { transitivity ((RtoC (2 / (MU_0 * (k * L0)) + omega ^ 2 * (EPSILON_0 * (k * L0)) * x) * (RtoC k * snd F1 0%nat) - RtoC (k ^ 2) * (RtoC (2 / (MU_0 * L0) + omega ^ 2 * (EPSILON_0 * L0) * x) * snd F1 0%nat))%C); [replace (k ^ 2)%R with (k * k)%R by ring; rewrite (RtoC_mult k k); ring|].
    rewrite Z1, Z2. ring. }
  apply Cmult_integral in EQ. destruct EQ as [EQ|EQ].
  - apply Cmult_integral in EQ. destruct EQ; contradiction.
  - rewrite <- RtoC_mult, <- RtoC_minus in EQ. apply RtoC_inj in EQ. apply Hk1.
    assert (G: (2 / (MU_0 * (k * L0)) = k * (2 / (MU_0 * L0)))%R) by nra.
    assert (G2: (1 = k * k)%R).
    { apply (Rmult_eq_reg_l (2 / (MU_0 * k * L0))); [|apply Rgt_not_eq, Rdiv_lt_0_compat; [lra|repeat apply Rmult_lt_0_compat; lra]].
      transitivity (2 / (MU_0 * (k * L0)))%R; [field; repeat split; lra|]. rewrite G. field. repeat split; lra. }
    nra.
Qed.
(** the hypotheses can be met *)
Example C82_one_pixel_met : exists a1 a2,
  Simulation 1 (mkNd 1 1 (fun _ => 2%R)) 1 (Some [0; 0]%Z) "Ez" 1 = Ok a1 /\
  Simulation 1 (mkNd 1 1 (fun _ => 2%R)) (1 / 3) (Some [0; 0]%Z) "Ez" (3 * 1) = Ok a2 /\ solver_exact ex_env.
Proof.
  unfold Simulation, check_inputs. destruct (Rlt_dec 0 1); [|lra]. destruct (Rlt_dec 0 (3 * 1)); [|lra]. cbn.
  do 2 eexists. split; [reflexivity|]. split; [reflexivity|]. apply ex_env_exact.
Qed.
(** a device of 3 x 2 pixels with a Kerr material everywhere, in units 3 times longer *)
Example C82_met : exists s2, same_device ex_env_mkl 3 ex_nl s2 3 2 /\ solver_exact ex_env_mkl /\ real_solver_exact ex_env_mkl /\
  nonsingular (s_M ex_nl) (s_A ex_nl) /\ (forall F, nonsingular (s_M ex_nl) (nl_matrix ex_nl F)) /\
  (s_pol ex_nl = PolEz -> forall E, widely_injective (s_M ex_nl) (nl_jac11 ex_nl E) (nl_jac12 ex_nl E)) /\
  exists s' F conv, solve_fields_nl ex_env_mkl false None "newton" (1 / 10 ^ 10) 50 ex_nl = (s', Ok (F, conv)).
Proof.
  assert (S1 := ex_s_eq "Ez" ltac:(auto)).
  assert (S2: exists a2, Simulation ex_omega ex_eps (1 / 3) (Some [0; 0]%Z) "Ez" (3 * 1) = Ok a2).
  { unfold Simulation, check_inputs. destruct (Rlt_dec 0 (3 * 1)); [|lra]. destruct (Rlt_dec 0 ex_omega); [|exfalso; assert (P := ex_omega_pos); lra].
    cbn. eexists; reflexivity. }
  destruct S2 as [a2 S2].
  assert (D: same_device ex_env_mkl 3 ex_nl (run_ops ex_env_mkl ([AddNl (1/10) (fun _ => 1%R) "kerr" false None] ++ [SetSrc (mkNd 3 2 (fun r => (RtoC (3 ^ 2) * nd_buf ex_nl_src r)%C))]) a2) 3 2).
  { constructor; [lra|]. exists ex_omega, ex_eps, 1%R, (Some [0; 0]%Z), "Ez"%string, 1%R, [AddNl (1/10) (fun _ => 1%R) "kerr" false None], ex_nl_src,
      (mkNd 3 2 (fun r => (RtoC (3 ^ 2) * nd_buf ex_nl_src r)%C)), (ex_s "Ez"), a2.
    split; [lra|]. split; [reflexivity|]. split; [reflexivity|]. split; [lia|]. split; [lia|]. split; [exact S1|]. split; [exact S2|].
    split; [constructor; [|constructor]; do 5 eexists; reflexivity|]. repeat (split; [reflexivity|]). split; reflexivity. }
  eexists. split; [exact D|]. split; [apply ex_mkl_exact|]. split; [apply ex_mkl_real_exact|].
  split; [apply (g_A _ _ _ (same_device_good _ _ _ _ _ _ D ex_nl_nonsingular (fun _ => ex_nl_widely)))|].
  split; [apply ex_nl_nonsingular|]. split; [intro; apply ex_nl_widely|]. apply C30_met.
Qed.
