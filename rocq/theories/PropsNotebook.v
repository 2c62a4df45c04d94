(** C121, C122: the objectives of the example notebooks. *)
From Coq Require Import Reals Lra Lia List ZArith Arith Bool String.
From Coquelicot Require Import Coquelicot.
From Verif Require Import Base Linear MCore MSim MFilter MOpt MMode MNotebook Spec PCore PSim PEx PExOpt PMode POpt PGrad PropsCore PropsSolve PropsLin PropsNl PropsIter PropsGrad PropsGradNl PropsOpt3 PropsFlux PropsMode PropsScan PropsFlat PropsWave PropsAscent PropsAccuracy PropsFilter.
Import ListNotations.
Local Open Scope string_scope.

(* ------------------------------------------------------------------ *)
(** ** Weighed intensities *)

Lemma weighed_form w M F P : weighed w M F P = rsum M (fun k => (match w with Squared => P k ^ 2 | Plain => P k end) * Cnorm2 (F k))%R.
Proof.
  destruct w; cbn [weighed]; apply rsum_ext; intros k _.
  - rewrite Cmod_mult, Rpow_mult_distr, Cmod2, Cmod_R, pow2_abs. ring.
  - rewrite Cmod2. ring.
Qed.
Lemma weighed_nonneg w M F P : (w = Plain -> forall k, (k < M)%nat -> (0 <= P k)%R) -> (0 <= weighed w M F P)%R.
Proof.
  intro H. rewrite weighed_form. apply rsum_ge0. intros k Hk. apply Rmult_le_pos; [|rewrite <- Cmod2; apply pow2_ge_0].
  destruct w; [apply pow2_ge_0|apply H; auto].
Qed.
Lemma weighed_scaled w M F G P c : (forall k, (k < M)%nat -> G k = (RtoC c * F k)%C) -> weighed w M G P = (c ^ 2 * weighed w M F P)%R.
Proof.
  intro H. rewrite !weighed_form, <- rsum_scal. apply rsum_ext. intros k Hk. rewrite (H k Hk), <- !Cmod2, Cmod_mult, Cmod_R, Rpow_mult_distr, pow2_abs. ring.
Qed.
Lemma weighed_normalized w M F P scale : (0 < scale)%R -> weighed w M F (normalized w scale P) = (weighed w M F P / scale)%R.
Proof.
  intro H. rewrite !weighed_form. unfold Rdiv. rewrite <- rsum_scal_r. apply rsum_ext. intros k Hk. destruct w; cbn [normalized]; [|unfold Rdiv; ring].
  unfold Rdiv. rewrite Rpow_mult_distr, pow_inv, <- (Rsqr_pow2 (sqrt scale)), Rsqr_sqrt by lra. ring.
Qed.
Lemma profile_nonneg s k : (0 <= profile s k)%R.
Proof. apply Cmod_ge_0. Qed.

(* ------------------------------------------------------------------ *)
(** ** Two source amplitudes *)
Lemma insert_W e m W s d : insert_mode e m (upd_W_in W s) d = insert_mode e m s d.
Proof. reflexivity. Qed.
Lemma placed_inv e omega eps dl NPML L0 m s : placed e omega eps dl NPML L0 m = Ok s ->
  exists s0 W src, Simulation omega eps dl (Some NPML) "Ez" L0 = Ok s0 /\
    compute_normalization e m (upd_modes [m] s0) = Ok W /\ insert_mode e m s0 (s_src s0) = Ok src /\
    s = upd_src src (upd_W_in W (upd_modes [m] s0)).
Proof.
  unfold placed. destruct (Simulation omega eps dl (Some NPML) "Ez" L0) as [s0|] eqn:E0; [|discriminate]. cbn [rbind].
  assert (EM: s_modes s0 = []) by (unfold Simulation in E0; destruct (check_inputs _ _ _ _); [injection E0 as <-; reflexivity|discriminate]).
  cbv beta iota delta [add_mode modS bind setup_modes]. rewrite EM. cbn [List.app upd_modes s_modes setup_list bind].
  change (mkSim _ _ _ _ _ _ _ _ _ _ _ _ _ _ _ [m] _ _ _ _ _ _ _) with (upd_modes [m] s0).
  cbv beta iota delta [bind setup_src].
  destruct (compute_normalization e m (upd_modes [m] s0)) as [W|] eqn:EW; [|discriminate]. cbv zeta.
  destruct (insert_mode e m (upd_W_in W (upd_modes [m] s0)) _) as [src|] eqn:EI; [|discriminate]. cbn.
  intro H. injection H as <-. exists s0, W, src. repeat split; try assumption. 
Qed.
Lemma placed_scaled e omega eps dl NPML L0 m x y s1 s2 : (y <> 0)%R ->
  placed e omega eps dl NPML L0 (with_scale m x) = Ok s1 -> placed e omega eps dl NPML L0 (with_scale m y) = Ok s2 ->
  exists s0 d1 d2 W1 W2, s1 = upd_src d1 (upd_W_in W1 (upd_modes [with_scale m x] s0)) /\
    s2 = upd_src d2 (upd_W_in W2 (upd_modes [with_scale m y] s0)) /\
    nd_size d1 = s_M s0 /\ nd_size d2 = s_M s0 /\
    forall k, (k < s_M s0)%nat -> nd_buf d1 k = (RtoC (x / y) * nd_buf d2 k)%C.
Proof.
  intros Hy H1 H2. apply placed_inv in H1 as (s0 & W1 & d1 & E0 & _ & I1 & ->). apply placed_inv in H2 as (s0' & W2 & d2 & E0' & _ & I2 & ->).
  rewrite E0 in E0'. injection E0' as <-.
  assert (HS: s_src s0 = mkNd (s_Nx s0) (s_Ny s0) (fun _ => RtoC 0)) by (unfold Simulation in E0; destruct (check_inputs _ _ _ _); [injection E0 as <-; reflexivity|discriminate]).
  exists s0, d1, d2, W1, W2. split; [reflexivity|]. split; [reflexivity|].
  destruct (insert_scaled e m x y s0 (s_src s0) d1 d2 Hy I1 I2) as (D1 & D2 & D3 & D4 & HB).
  { intros i j _ _ _. rewrite HS. reflexivity. }
  rewrite HS in D1, D2, D3, D4, HB. cbn [nd_nx nd_ny] in D1, D2, D3, D4. unfold nd_size in HB. cbn [nd_nx nd_ny] in HB. unfold nd_size, s_M. rewrite D1, D2, D3, D4. auto.
Qed.
(** the field in a structure, for two amplitudes of the source *)
Lemma field_scaled e d1 d2 W1 W2 l1 l2 s0 c design X1 X2 : solver_exact e ->
  nonsingular (s_M (set_eps design s0)) (s_A (set_eps design s0)) -> nd_size d1 = s_M s0 ->
  (forall k, (k < s_M s0)%nat -> nd_buf d1 k = (RtoC c * nd_buf d2 k)%C) ->
  Ez_of e (set_eps design (upd_src d1 (upd_W_in W1 (upd_modes l1 s0)))) = Ok X1 ->
  Ez_of e (set_eps design (upd_src d2 (upd_W_in W2 (upd_modes l2 s0)))) = Ok X2 ->
  forall k, (k < s_M s0)%nat -> X1 k = (RtoC c * X2 k)%C.
Proof.
  intros He HN HZ HB H1 H2. unfold Ez_of in H1, H2.
  destruct (solve_fields e false false (set_eps design (upd_src d1 _))) as [t1 [[[a1 b1] Y1]|]] eqn:S1; [|discriminate]. injection H1 as <-.
  destruct (solve_fields e false false (set_eps design (upd_src d2 _))) as [t2 [[[a2 b2] Y2]|]] eqn:S2; [|discriminate]. injection H2 as <-.
  apply solve_fields_ok in S1 as (SZ & Q1 & _). change (nd_size d1 = s_M (set_eps design s0)) in SZ. rewrite HZ in SZ. rewrite SZ in HB |- *. apply solve_fields_ok in S2 as (_ & Q2 & _). cbn [used_matrix] in Q1, Q2.
  assert (L1: solves (s_M (set_eps design s0)) (s_A (set_eps design s0)) Y1 (fun k => nd_buf d1 k * Ci * RtoC (s_omega s0))%C) by (eapply solver_direct_correct; [exact He|exact HN|exact Q1]).
  assert (L2: solves (s_M (set_eps design s0)) (s_A (set_eps design s0)) Y2 (fun k => nd_buf d2 k * Ci * RtoC (s_omega s0))%C) by (eapply solver_direct_correct; [exact He|exact HN|exact Q2]).
  apply (solves_unique _ _ _ (fun k => RtoC c * Y2 k)%C _ HN L1). intros r Hr. rewrite (HB r Hr).
  rewrite <- (Cmult_assoc (RtoC c)), <- (Cmult_assoc (RtoC c)), <- (L2 r Hr), <- csum_scal. apply csum_ext. intros j _. ring.
Qed.
Lemma guide_scaled e w omega eps_wg dl NPML L0 m_in m_out x y S1 S2 : solver_exact e -> (y <> 0)%R ->
  (forall s, placed e omega eps_wg dl NPML L0 (with_scale m_in x) = Ok s -> nonsingular (s_M s) (s_A s)) ->
  guide_scale e w omega eps_wg dl NPML L0 m_in m_out x = Ok S1 -> guide_scale e w omega eps_wg dl NPML L0 m_in m_out y = Ok S2 ->
  S1 = ((x / y) ^ 2 * S2)%R.
Proof.
  intros He Hy HN H1 H2. unfold guide_scale in H1, H2.
  destruct (placed e omega eps_wg dl NPML L0 (with_scale m_in x)) as [s1|] eqn:P1; [|discriminate].
  destruct (placed e omega eps_wg dl NPML L0 (with_scale m_in y)) as [s2|] eqn:P2; [|discriminate].
  destruct (placed e omega eps_wg dl NPML L0 m_out) as [o|]; [|discriminate]. cbn [rbind] in H1, H2.
  destruct (Ez_of e s1) as [X1|] eqn:E1; [|discriminate]. destruct (Ez_of e s2) as [X2|] eqn:E2; [|discriminate]. cbn [rbind] in H1, H2.
  injection H1 as <-. injection H2 as <-. specialize (HN _ eq_refl).
  assert (P1' := P1). apply placed_inv in P1' as (s00 & _ & _ & SIM & _ & _ & _).
  destruct (placed_scaled _ _ _ _ _ _ _ _ _ _ _ Hy P1 P2) as (s0 & d1 & d2 & W1 & W2 & -> & -> & Z1 & Z2 & HB).
  change (s_M (upd_src d1 _)) with (s_M s0) in *. change (s_M (upd_src d2 _)) with (s_M s0) in *. change (s_A (upd_src d1 _)) with (s_A s0) in HN.
  apply weighed_scaled. unfold Ez_of in E1, E2.
  destruct (solve_fields e false false (upd_src d1 _)) as [t1 [[[a1 b1] Y1]|]] eqn:Q1; [|discriminate]. injection E1 as <-.
  destruct (solve_fields e false false (upd_src d2 _)) as [t2 [[[a2 b2] Y2]|]] eqn:Q2; [|discriminate]. injection E2 as <-.
  apply solve_fields_ok in Q1 as (_ & Q1 & _). apply solve_fields_ok in Q2 as (_ & Q2 & _). cbn [used_matrix] in Q1, Q2.
  assert (L1: solves (s_M s0) (s_A s0) Y1 (fun k => nd_buf d1 k * Ci * RtoC (s_omega s0))%C) by (eapply solver_direct_correct; [exact He|exact HN|exact Q1]).
  assert (L2: solves (s_M s0) (s_A s0) Y2 (fun k => nd_buf d2 k * Ci * RtoC (s_omega s0))%C) by (eapply solver_direct_correct; [exact He|exact HN|exact Q2]).
  apply (solves_unique _ _ _ (fun k => RtoC (x / y) * Y2 k)%C _ HN L1). intros r Hr. rewrite (HB r Hr).
  rewrite <- (Cmult_assoc (RtoC (x / y))), <- (Cmult_assoc (RtoC (x / y))), <- (L2 r Hr), <- csum_scal. apply csum_ext. intros j _. ring.
Qed.
Lemma guide_scale_nonneg e w omega eps_wg dl NPML L0 m_in m_out x S : guide_scale e w omega eps_wg dl NPML L0 m_in m_out x = Ok S -> (0 <= S)%R.
Proof.
  unfold guide_scale. destruct (placed e omega eps_wg dl NPML L0 (with_scale m_in x)) as [s1|]; [|discriminate].
  destruct (placed e omega eps_wg dl NPML L0 m_out) as [o|]; [|discriminate]. cbn [rbind]. destruct (Ez_of e s1) as [X1|]; [|discriminate]. cbn [rbind].
  intro H. injection H as <-. apply weighed_nonneg. intros; apply profile_nonneg.
Qed.

(** The amplitude of the source does not matter: two runs of a notebook, up to the evaluation of
    the linear transmissions of a design, that differ in source_amp only, give the same numbers. *)
Theorem C121_source_strength_cancels :
  forall e w omega eps eps_p eps_wg dl NPML L0 source ports m_in m_out design x y T1 T2 Sx,
  solver_exact e -> (x <> 0)%R -> (y <> 0)%R ->
  (forall s, placed e omega eps_wg dl NPML L0 (with_scale m_in x) = Ok s -> nonsingular (s_M s) (s_A s)) ->
  (forall s, placed e omega eps dl NPML L0 (with_scale source x) = Ok s -> nonsingular (s_M (set_eps design s)) (s_A (set_eps design s))) ->
  guide_scale e w omega eps_wg dl NPML L0 m_in m_out x = Ok Sx -> Sx <> 0%R ->
  transmissions e w omega eps eps_p eps_wg dl NPML L0 source ports m_in m_out x design = Ok T1 ->
  transmissions e w omega eps eps_p eps_wg dl NPML L0 source ports m_in m_out y design = Ok T2 ->
  T1 = T2.
Proof.
  intros e w omega eps eps_p eps_wg dl NPML L0 source ports m_in m_out design x y T1 T2 Sx He Hx Hy HG HD ES HS H1 H2.
  unfold transmissions in H1, H2.
  destruct (placed e omega eps dl NPML L0 (with_scale source x)) as [s1|] eqn:P1; [|discriminate].
  destruct (placed e omega eps dl NPML L0 (with_scale source y)) as [s2|] eqn:P2; [|discriminate].
  destruct (profiles e omega eps_p dl NPML L0 ports) as [Ps|]; [|discriminate]. cbn [rbind] in H1, H2. rewrite ES in H1.
  destruct (guide_scale e w omega eps_wg dl NPML L0 m_in m_out y) as [Sy|] eqn:EY; [|discriminate]. cbn [rbind] in H1, H2.
  assert (EQ := guide_scaled _ _ _ _ _ _ _ _ _ _ _ _ _ He Hy HG ES EY).
  assert (N1 := guide_scale_nonneg _ _ _ _ _ _ _ _ _ _ _ ES). assert (N2 := guide_scale_nonneg _ _ _ _ _ _ _ _ _ _ _ EY).
  assert (Sx0 : (0 < Sx)%R) by lra. assert (Sy0: (0 < Sy)%R). { destruct N2 as [|<-]; [assumption|]. rewrite Rmult_0_r in EQ. lra. }
  destruct (Ez_of e (set_eps design s1)) as [X1|] eqn:E1; [|discriminate]. destruct (Ez_of e (set_eps design s2)) as [X2|] eqn:E2; [|discriminate]. cbn [rbind] in H1, H2.
  injection H1 as <-. injection H2 as <-. specialize (HD _ eq_refl).
  destruct (placed_scaled _ _ _ _ _ _ _ _ _ _ _ Hy P1 P2) as (s0 & d1 & d2 & W1 & W2 & -> & -> & Z1 & Z2 & HB).
  change (s_M (upd_src d1 _)) with (s_M s0) in *. change (s_M (upd_src d2 _)) with (s_M s0) in *.
  change (s_A (set_eps design (upd_src d1 _))) with (s_A (set_eps design s0)) in HD. change (s_M (set_eps design (upd_src d1 _))) with (s_M (set_eps design s0)) in HD.
  assert (FS := field_scaled _ _ _ _ _ _ _ _ _ _ _ _ He HD Z1 HB E1 E2).
  apply map_ext. intro P. rewrite !weighed_normalized by assumption. rewrite (weighed_scaled w _ X2 X1 P (x / y) FS), EQ. field. repeat split; lra.
Qed.

(** The straight guide itself transmits 1: the field it was normalized with, weighed with the
    normalized profile of its output. *)
Theorem C121_straight_guide_transmits_one :
  forall e w omega eps_wg dl NPML L0 m_in m_out amp S wg out X,
  guide_scale e w omega eps_wg dl NPML L0 m_in m_out amp = Ok S -> S <> 0%R ->
  placed e omega eps_wg dl NPML L0 (with_scale m_in amp) = Ok wg -> placed e omega eps_wg dl NPML L0 m_out = Ok out -> Ez_of e wg = Ok X ->
  weighed w (s_M wg) X (normalized w S (profile out)) = 1%R.
Proof.
  intros e w omega eps_wg dl NPML L0 m_in m_out amp S wg out X HS H0 H1 H2 H3. assert (N := guide_scale_nonneg _ _ _ _ _ _ _ _ _ _ _ HS).
  rewrite weighed_normalized by lra. unfold guide_scale in HS. rewrite H1, H2 in HS. cbn [rbind] in HS. rewrite H3 in HS. cbn [rbind] in HS. injection HS as HS. rewrite HS. field. exact H0.
Qed.
(* ------------------------------------------------------------------ *)
(** ** Splitters *)
Definition total (l : list R) : R := fold_right Rplus 0%R l.

Lemma product_of_acc n l : forall a, fold_left (fun acc t => acc * (n * t))%R l a = (a * fold_right (fun t p => n * t * p) 1 l)%R.
Proof. induction l as [|t l IH]; intro a; cbn [fold_left fold_right]; [ring|]. rewrite IH. ring. Qed.
Lemma product_bound l : List.Forall (fun x => 0 <= x)%R l ->
  (0 <= fold_right Rmult 1 l <= exp (total l - INR (List.length l)))%R /\
  (fold_right Rmult 1 l = exp (total l - INR (List.length l)) -> List.Forall (fun x => x = 1)%R l)%R.
Proof.
  induction l as [|x l IH]; intro H; cbn [fold_right total List.length].
  - cbn. replace (0 - 0)%R with 0%R by ring. rewrite exp_0. split; [lra|constructor].
  - inversion H as [|? ? Hx Hl]; subst. destruct (IH Hl) as [[P0 P1] Q].
    set (P := fold_right Rmult 1%R l) in *. fold (total l).
    assert (EE: exp (x + total l - INR (S (List.length l))) = (exp (x - 1) * exp (total l - INR (List.length l)))%R).
    { rewrite <- exp_plus. f_equal. rewrite S_INR. ring. }
    rewrite EE. set (E := exp (total l - INR (List.length l))) in *. assert (E0: (0 < E)%R) by apply exp_pos. assert (X0 := exp_pos (x - 1)).
    assert (X1: (x <= exp (x - 1))%R) by (replace x with (1 + (x - 1))%R at 1 by ring; apply exp_ineq1_le).
    split; [split; [apply Rmult_le_pos; assumption|apply Rmult_le_compat; assumption]|].
    intro EQ. destruct (Req_EM_T x 1) as [->|NE].
    + constructor; [reflexivity|]. apply Q. replace (1 - 1)%R with 0%R in EQ by ring. rewrite exp_0 in EQ. lra.
    + exfalso. assert (X2: (x < exp (x - 1))%R) by (replace x with (1 + (x - 1))%R at 1 by ring; apply exp_ineq1; lra).
      assert ((x * P <= x * E)%R) by (apply Rmult_le_compat_l; assumption). assert ((x * E < exp (x - 1) * E)%R) by (apply Rmult_lt_compat_r; assumption). lra.
Qed.
Lemma total_scale n l : total (List.map (Rmult n) l) = (n * total l)%R.
Proof. induction l as [|x l IH]; cbn; [ring|]. fold (total (List.map (Rmult n) l)) (total l). rewrite IH. ring. Qed.
Lemma product_of_map n l : product_of n l = fold_right Rmult 1%R (List.map (Rmult n) l).
Proof. unfold product_of. rewrite product_of_acc, Rmult_1_l. induction l as [|x l IH]; cbn [fold_right List.map]; [reflexivity|]. rewrite IH. ring. Qed.

(** What the ports get of the field F *)
Definition port_powers (M : nat) (F : vec) (Ps : list rvec) : list R := List.map (weighed Squared M F) Ps.

(** The objective of an N-way splitter: never negative, zero exactly if some port gets nothing;
    at most 1 if the ports together get at most the power of the straight guide, and then 1
    exactly if every port gets one N-th. *)
Theorem C121_equal_split_is_best :
  forall M Ps F, Ps <> [] ->
  let J := pf_val (splitter_N M Ps) [F] in let T := port_powers M F Ps in let N := INR (List.length Ps) in
  (0 <= J)%R /\ (J = 0%R <-> In 0%R T) /\
  ((total T <= 1)%R -> (J <= 1)%R /\ (J = 1%R <-> List.Forall (fun t => t = (1 / N)%R) T)).
Proof.
  intros M Ps F HP J T N.
  assert (HN: (0 < N)%R). { unfold N. destruct Ps; [contradiction|]. apply lt_0_INR. cbn. lia. }
  assert (EJ: J = fold_right Rmult 1%R (List.map (Rmult N) T)) by (unfold J; cbn [splitter_N pf_val List.nth]; apply product_of_map).
  assert (HT: List.Forall (fun x => 0 <= x)%R T).
  { apply Forall_forall. intros x Hx. apply in_map_iff in Hx as (P & <- & _). apply weighed_nonneg. discriminate. }
  assert (HM: List.Forall (fun x => 0 <= x)%R (List.map (Rmult N) T)).
  { apply Forall_forall. intros x Hx. apply in_map_iff in Hx as (t & <- & Ht). rewrite Forall_forall in HT. apply Rmult_le_pos; [lra|apply HT, Ht]. }
  destruct (product_bound _ HM) as [[B0 B1] B2]. rewrite <- EJ in *.
  assert (LT: List.length T = List.length Ps) by apply map_length.
  rewrite total_scale, map_length, LT in B1, B2. fold N in B1, B2.
  split; [exact B0|]. split.
  - rewrite EJ. clear - HN. induction T as [|t T IH]; cbn [List.map fold_right In]; [split; [lra|tauto]|]. split.
    + intro H. apply Rmult_integral in H as [H|H]; [left|right; apply IH, H]. apply Rmult_integral in H as [H|H]; lra.
    + intros [->|H]; [ring|]. rewrite (proj2 IH H). ring.
  - intro HS. assert (EB: (exp (N * total T - N) <= 1)%R).
    { rewrite <- exp_0. destruct (Req_EM_T (N * total T - N) 0) as [->|NE]; [lra|]. apply Rlt_le, exp_increasing. nra. }
    split; [lra|]. split.
    + intro E1. assert (A := B2 ltac:(lra)). rewrite Forall_forall in *. intros t Ht. assert (Q := A (N * t)%R (in_map _ _ _ Ht)). unfold Rdiv. rewrite Rmult_1_l. apply (Rmult_eq_reg_l N); [|lra]. rewrite Q. field. lra.
    + intro HA. rewrite EJ. clear - HA HN. induction T as [|t T IH]; cbn [List.map fold_right]; [reflexivity|]. inversion HA; subst. rewrite IH by assumption. field. lra.
Qed.
(** the objective of Splitter.ipynb is the two-way case *)
Theorem C121_two_way : forall M J_top J_bot Fs, pf_val (splitter M J_top J_bot) Fs = pf_val (splitter_N M [J_top; J_bot]) Fs.
Proof. intros. cbn [splitter splitter_N pf_val List.map List.length product_of fold_left]. unfold product_of. cbn [fold_left]. cbn [INR]. ring. Qed.

(** Switches: with the ports getting at most the power of the straight guide, linearly and
    nonlinearly, the objective of the T port lies between -1 and 1, and is 1 exactly if everything
    goes to the right in the linear case and to the top in the nonlinear one; the objective of the
    two port lies between -1 and 1 and is 1 exactly if everything passes in the linear case and
    nothing in the nonlinear one. *)
Theorem C121_switch :
  forall M (J_right J_top : rvec) e e_nl, (forall k, (k < M)%nat -> (0 <= J_right k)%R /\ (0 <= J_top k)%R) ->
  let to P F := weighed Plain M F P in
  (to J_right e + to J_top e <= 1)%R -> (to J_right e_nl + to J_top e_nl <= 1)%R ->
  ((-1 <= pf_val (T_port_J M J_right J_top) [e; e_nl] <= 1)%R /\
   (pf_val (T_port_J M J_right J_top) [e; e_nl] = 1%R <->
      to J_right e = 1%R /\ to J_top e = 0%R /\ to J_right e_nl = 0%R /\ to J_top e_nl = 1%R)) /\
  ((-1 <= pf_val (two_port_J M J_right) [e; e_nl] <= 1)%R /\
   (pf_val (two_port_J M J_right) [e; e_nl] = 1%R <-> to J_right e = 1%R /\ to J_right e_nl = 0%R)).
Proof.
  intros M Jr Jt e e' HP to H1 H2.
  assert (A: forall F, (0 <= to Jr F)%R /\ (0 <= to Jt F)%R) by (intro F; split; apply weighed_nonneg; intros _ k Hk; apply (HP k Hk)).
  destruct (A e) as [A1 A2]. destruct (A e') as [A3 A4]. cbn [T_port_J two_port_J pf_val List.nth].
  fold (to Jr e) (to Jt e) (to Jr e') (to Jt e'). generalize dependent (to Jr e). generalize dependent (to Jt e). generalize dependent (to Jr e'). generalize dependent (to Jt e').
  intros d Hd c Hcd Hc b Hb a Hab Ha. repeat split; intros; lra.
Qed.

(** The three port device of 3_port.ipynb is the same switch, with the top port for low power
    and the bottom port for high power. *)
Theorem C121_three_port :
  forall M (J_top J_bot : rvec) e e_nl, (forall k, (k < M)%nat -> (0 <= J_top k)%R /\ (0 <= J_bot k)%R) ->
  let to P F := rsum M (fun k => Cmod (F k) ^ 2 * P k)%R in
  (to J_top e + to J_bot e <= 1)%R -> (to J_top e_nl + to J_bot e_nl <= 1)%R ->
  (-1 <= pf_val (three_port_J M J_top J_bot) [e; e_nl] <= 1)%R /\
  (pf_val (three_port_J M J_top J_bot) [e; e_nl] = 1%R <->
     to J_top e = 1%R /\ to J_bot e = 0%R /\ to J_top e_nl = 0%R /\ to J_bot e_nl = 1%R) /\
  (e = e_nl -> pf_val (three_port_J M J_top J_bot) [e; e_nl] = 0%R).
Proof.
  intros M Jr Jt e e' HP to H1 H2.
  assert (A: forall F, (0 <= to Jr F)%R /\ (0 <= to Jt F)%R) by (intro F; split; apply (weighed_nonneg Plain M); intros _ k Hk; apply (HP k Hk)).
  destruct (A e) as [A1 A2]. destruct (A e') as [A3 A4]. cbn [three_port_J pf_val List.nth].
  change (weighed Plain M ?F ?P) with (to P F).
  split; [lra|]. split; [split; intros; lra|]. intros ->. lra.
Qed.

(** What a port of the device gets: one number per port, the intensity of the field of the
    design weighed with the profile of that port, over the same for the straight guide. *)
Theorem C121_transmission_of_each_port :
  forall e w omega eps eps_p eps_wg dl NPML L0 source ports m_in m_out amp design ts,
  transmissions e w omega eps eps_p eps_wg dl NPML L0 source ports m_in m_out amp design = Ok ts ->
  exists scale s X, guide_scale e w omega eps_wg dl NPML L0 m_in m_out amp = Ok scale /\
    placed e omega eps dl NPML L0 (with_scale source amp) = Ok s /\ Ez_of e (set_eps design s) = Ok X /\
    List.length ts = List.length ports /\
    forall i m, nth_error ports i = Some m -> exists p, placed e omega eps_p dl NPML L0 m = Ok p /\
      ((0 < scale)%R ->
       List.nth i ts 0%R = (rsum (s_M s) (fun k => Cmod (X k) ^ 2 *
          match w with Squared => Cmod (nd_buf (s_src p) k) ^ 2 | Plain => Cmod (nd_buf (s_src p) k) end) / scale)%R).
Proof.
  intros e w omega eps eps_p eps_wg dl NPML L0 source ports m_in m_out amp design ts H. unfold transmissions in H.
  destruct (placed e omega eps dl NPML L0 (with_scale source amp)) as [s|] eqn:E1; [|discriminate]. cbn [rbind] in H.
  destruct (profiles e omega eps_p dl NPML L0 ports) as [Ps|] eqn:E2; [|discriminate]. cbn [rbind] in H.
  destruct (guide_scale e w omega eps_wg dl NPML L0 m_in m_out amp) as [scale|] eqn:E3; [|discriminate]. cbn [rbind] in H.
  destruct (Ez_of e (set_eps design s)) as [X|] eqn:E4; [|discriminate]. cbn [rbind] in H.
  assert (ET: ts = List.map (fun P => weighed w (s_M s) X (normalized w scale P)) Ps) by (injection H as H; symmetry; exact H). clear H. subst ts.
  exists scale, s, X. do 3 (split; [reflexivity || assumption|]). rewrite map_length.
  revert Ps E2. induction ports as [|m ports IH]; intros Ps E2; cbn [profiles] in E2.
  - injection E2 as <-. split; [reflexivity|]. intros [|i] m Hm; discriminate.
  - destruct (placed e omega eps_p dl NPML L0 m) as [p|] eqn:EP; [|discriminate]. cbn [rbind] in E2.
    destruct (profiles e omega eps_p dl NPML L0 ports) as [Qs|] eqn:EQ; [|discriminate]. cbn [rbind] in E2. injection E2 as <-.
    destruct (IH Qs eq_refl) as [L R]. cbn [List.length List.map]. split; [f_equal; exact L|].
    intros [|i] m' Hm; cbn [nth_error List.nth] in *.
    + injection Hm as <-. exists p. split; [exact EP|]. intro HS. rewrite weighed_normalized by exact HS. f_equal. rewrite weighed_form. apply rsum_ext. intros k _. rewrite <- Cmod2. unfold profile. destruct w; ring.
    + exact (R i m' Hm).
Qed.


(** Without a nonlinearity the switches have objective 0, whichever solver is used. *)
Theorem C121_linear_switch :
  forall e s av name thr n s0 Lx Ly Lz s' Fx Fy Fz conv J_right J_top, solver_exact e -> no_nonlinearity s -> nonsingular (s_M s) (s_A s) ->
  (0 < n)%nat -> (0 < thr)%R -> (s_omega s <> 0)%R -> (exists k, (k < s_M s)%nat /\ nd_buf (s_src s) k <> RtoC 0) ->
  solve_fields e false false s = (s0, Ok (Lx, Ly, Lz)) ->
  (s_fields s (pol_comp (s_pol s)) = None \/ exists X, s_fields s (pol_comp (s_pol s)) = Some X /\ veq (s_M s) X Lz) ->
  name = "born"%string \/ name = "hybrid"%string \/ (name = "newton"%string /\ s_pol s = PolEz) ->
  solve_fields_nl e av None name thr n s = (s', Ok (Fx, Fy, Fz, conv)) ->
  pf_val (T_port_J (s_M s) J_right J_top) [Lz; Fz] = 0%R /\ pf_val (two_port_J (s_M s) J_right) [Lz; Fz] = 0%R.
Proof.
  intros e s av name thr n s0 Lx Ly Lz s' Fx Fy Fz conv Jr Jt He Hq HA Hn Ht Ho Hs HL Hst Hname H.
  destruct (C34_no_nonlinearity_gives_linear_fields e s av name thr n s0 Lx Ly Lz He Hq HA Hn Ht Ho Hs HL Hst Hname) as (t & Gx & Gy & Gz & c & HG & _ & EQ).
  rewrite H in HG. injection HG as _ _ _ <- _.
  assert (W: forall P, weighed Plain (s_M s) Fz P = weighed Plain (s_M s) Lz P).
  { intro P. rewrite !weighed_form. apply rsum_ext. intros k Hk. rewrite (proj2 (proj2 (EQ k Hk))). reflexivity. }
  cbn [T_port_J two_port_J pf_val List.nth]. rewrite !W. split; field.
Qed.
(* ------------------------------------------------------------------ *)
(** ** Gradients *)
Definition vz : nat -> C := fun _ => RtoC 0.
Definition lin_part (n : nat) (Fs Gs : list (nat -> C)) (g : nat -> nat -> C) : R :=
  rsum (List.length Fs) (fun i => Re (csum n (fun k => (g i k * (List.nth i Gs vz k - List.nth i Fs vz k))%C))).
Lemma change_nonneg n Fs Gs : (0 <= field_change n Fs Gs)%R.
Proof. unfold field_change. apply rsum_ge0; intros. apply rsum_ge0; intros. apply Cmod_ge_0. Qed.
Lemma lin_part_bound n Fs Gs g : (Rabs (lin_part n Fs Gs g) <= rsum (List.length Fs) (fun i => rsum n (fun k => Cmod (g i k))) * field_change n Fs Gs)%R.
Proof.
  unfold lin_part, field_change. eapply Rle_trans; [apply rsum_abs|]. rewrite <- rsum_scal. apply rsum_le. intros i Hi.
  rewrite <- rsum_scal. eapply Rle_trans; [apply Cmod_Re_le|]. eapply Rle_trans; [apply csum_mod|]. apply rsum_le. intros k Hk. rewrite Cmod_mult.
  apply Rmult_le_compat_r; [apply Cmod_ge_0|].
  eapply Rle_trans; [apply (rsum_term_le n (fun k => Cmod (g i k)) k); [intros; apply Cmod_ge_0|exact Hk]|].
  apply (rsum_term_le (List.length Fs) (fun i => rsum n (fun k => Cmod (g i k))) i); [|exact Hi]. intros; apply rsum_ge0; intros; apply Cmod_ge_0.
Qed.
Lemma gradient_product n f1 f2 Fs g1 g2 : is_gradient n f1 Fs g1 -> is_gradient n f2 Fs g2 ->
  is_gradient n (fun X => f1 X * f2 X)%R Fs (fun i k => (RtoC (f2 Fs) * g1 i k + RtoC (f1 Fs) * g2 i k)%C).
Proof.
  intros H1 H2 eps He. set (A := Rabs (f1 Fs)). set (B := Rabs (f2 Fs)).
  set (K1 := rsum (List.length Fs) (fun i => rsum n (fun k => Cmod (g1 i k)))). set (K2 := rsum (List.length Fs) (fun i => rsum n (fun k => Cmod (g2 i k)))).
  assert (A0: (0 <= A)%R) by apply Rabs_pos. assert (B0: (0 <= B)%R) by apply Rabs_pos.
  assert (P1: (0 <= K1)%R) by (apply rsum_ge0; intros; apply rsum_ge0; intros; apply Cmod_ge_0).
  assert (P2: (0 <= K2)%R) by (apply rsum_ge0; intros; apply rsum_ge0; intros; apply Cmod_ge_0).
  set (e1 := Rmin 1 (eps / (3 * (A + B + 1)))). 
  assert (E1: (0 < e1)%R) by (apply Rmin_pos; [lra|apply Rdiv_lt_0_compat; lra]).
  assert (E1a: (e1 <= 1)%R) by apply Rmin_l.
  assert (E1b: (e1 * (A + B + 1) <= eps / 3)%R).
  { apply Rle_trans with (eps / (3 * (A + B + 1)) * (A + B + 1))%R; [apply Rmult_le_compat_r; [lra|apply Rmin_r]|]. right. field. lra. }
  destruct (H1 e1 E1) as (d1 & D1 & Q1). destruct (H2 e1 E1) as (d2 & D2 & Q2).
  set (d3 := (eps / (3 * ((K1 + 1) * (K2 + 1))))%R).
  assert (KK: (0 < (K1 + 1) * (K2 + 1))%R) by (apply Rmult_lt_0_compat; lra).
  assert (D3: (0 < d3)%R) by (apply Rdiv_lt_0_compat; lra).
  exists (Rmin d1 (Rmin d2 d3)). split; [repeat apply Rmin_pos; assumption|]. intros Gs HL Hd.
  assert (Hd1: (field_change n Fs Gs < d1)%R) by (eapply Rlt_le_trans; [exact Hd|apply Rmin_l]).
  assert (Hd2: (field_change n Fs Gs < d2)%R) by (eapply Rlt_le_trans; [exact Hd|eapply Rle_trans; [apply Rmin_r|apply Rmin_l]]).
  assert (Hd3: (field_change n Fs Gs < d3)%R) by (eapply Rlt_le_trans; [exact Hd|eapply Rle_trans; [apply Rmin_r|apply Rmin_r]]).
  specialize (Q1 Gs HL Hd1). specialize (Q2 Gs HL Hd2).
  change (rsum (List.length Fs) _) with (lin_part n Fs Gs g1) in Q1. change (rsum (List.length Fs) _) with (lin_part n Fs Gs g2) in Q2.
  assert (L1 := lin_part_bound n Fs Gs g1). assert (L2 := lin_part_bound n Fs Gs g2). fold K1 in L1. fold K2 in L2.
  assert (EL: rsum (List.length Fs) (fun i => Re (csum n (fun k => ((RtoC (f2 Fs) * g1 i k + RtoC (f1 Fs) * g2 i k) * (List.nth i Gs vz k - List.nth i Fs vz k))%C)))
     = (f2 Fs * lin_part n Fs Gs g1 + f1 Fs * lin_part n Fs Gs g2)%R).
  { unfold lin_part. rewrite <- !rsum_scal, <- rsum_plus. apply rsum_ext. intros i Hi. rewrite !Re_csum, <- !rsum_scal, <- rsum_plus. apply rsum_ext. intros k Hk. autorewrite with reim. cbn [Re Im RtoC fst snd]. ring. }
  change (fun _ : nat => RtoC 0) with vz. rewrite EL. assert (C0 := change_nonneg n Fs Gs).
  set (D := field_change n Fs Gs) in *. set (l1 := lin_part n Fs Gs g1) in *. set (l2 := lin_part n Fs Gs g2) in *.
  set (x1 := f1 Gs) in *. set (x2 := f2 Gs) in *.
  replace (x1 * x2 - f1 Fs * f2 Fs - (f2 Fs * l1 + f1 Fs * l2))%R with ((x1 - f1 Fs) * (x2 - f2 Fs) + f1 Fs * (x2 - f2 Fs - l2) + f2 Fs * (x1 - f1 Fs - l1))%R by ring.
  assert (T1: (Rabs (x1 - f1 Fs) <= (K1 + 1) * D)%R).
  { replace (x1 - f1 Fs)%R with ((x1 - f1 Fs - l1) + l1)%R by ring. eapply Rle_trans; [apply Rabs_triang|]. assert ((e1 * D <= 1 * D)%R) by (apply Rmult_le_compat_r; lra). lra. }
  assert (T2: (Rabs (x2 - f2 Fs) <= (K2 + 1) * D)%R).
  { replace (x2 - f2 Fs)%R with ((x2 - f2 Fs - l2) + l2)%R by ring. eapply Rle_trans; [apply Rabs_triang|]. assert ((e1 * D <= 1 * D)%R) by (apply Rmult_le_compat_r; lra). lra. }
  eapply Rle_trans; [apply Rabs_triang|]. eapply Rle_trans; [apply Rplus_le_compat_r, Rabs_triang|]. rewrite !Rabs_mult. fold A B.
  assert (S1: (Rabs (x1 - f1 Fs) * Rabs (x2 - f2 Fs) <= eps / 3 * D)%R).
  { eapply Rle_trans; [apply Rmult_le_compat; [apply Rabs_pos|apply Rabs_pos|exact T1|exact T2]|].
    replace ((K1 + 1) * D * ((K2 + 1) * D))%R with ((K1 + 1) * (K2 + 1) * D * D)%R by ring. apply Rmult_le_compat_r; [exact C0|].
    apply Rle_trans with ((K1 + 1) * (K2 + 1) * d3)%R; [apply Rmult_le_compat_l; lra|]. right. unfold d3. field. split; lra. }
  assert (S2: (A * Rabs (x2 - f2 Fs - l2) <= A * (e1 * D))%R) by (apply Rmult_le_compat_l; assumption).
  assert (S3: (B * Rabs (x1 - f1 Fs - l1) <= B * (e1 * D))%R) by (apply Rmult_le_compat_l; assumption).
  assert (S4: (e1 * (A + B + 1) * D <= eps / 3 * D)%R) by (apply Rmult_le_compat_r; assumption).
  assert (S5: (0 <= e1 * D)%R) by (apply Rmult_le_pos; lra). assert ((0 <= eps * D)%R) by (apply Rmult_le_pos; lra). lra.
Qed.
(** weighed intensities of the fields, with any weights *)
Definition quadratic (n : nat) (w : nat -> nat -> R) (Fs : list (nat -> C)) : R :=
  rsum (List.length Fs) (fun i => rsum n (fun k => w i k * Cnorm2 (List.nth i Fs vz k)))%R.
Lemma quadratic_gradient n w Fs : is_gradient n (quadratic n w) Fs (fun i k => (RtoC (2 * w i k) * Cconj (List.nth i Fs vz k))%C).
Proof.
  intros eps He. set (W := rsum (List.length Fs) (fun i => rsum n (fun k => Rabs (w i k)))).
  assert (W0: (0 <= W)%R) by (apply rsum_ge0; intros; apply rsum_ge0; intros; apply Rabs_pos).
  exists (eps / (W + 1))%R. split; [apply Rdiv_lt_0_compat; lra|]. intros Gs HL Hd. change (fun _ : nat => RtoC 0) with vz.
  unfold quadratic. rewrite HL. set (N := List.length Fs) in *. set (F := fun i => List.nth i Fs vz). set (G := fun i => List.nth i Gs vz).
  assert (E: (rsum N (fun i => rsum n (fun k => w i k * Cnorm2 (G i k))) - rsum N (fun i => rsum n (fun k => w i k * Cnorm2 (F i k)))
    - rsum N (fun i => Re (csum n (fun k => (RtoC (2 * w i k) * Cconj (F i k) * (G i k - F i k))%C)))
    = rsum N (fun i => rsum n (fun k => w i k * Cmod (G i k - F i k)%C ^ 2)))%R).
  { rewrite <- rsum_minus, <- rsum_minus. apply rsum_ext. intros i _. rewrite Re_csum, <- rsum_minus, <- rsum_minus.
    apply rsum_ext. intros k _. rewrite <- Cnorm2_diff. autorewrite with reim. cbn [Re Im RtoC fst snd]. unfold Cnorm2. ring. }
  match goal with |- (Rabs ?x <= _)%R => replace x with (rsum N (fun i => rsum n (fun k => w i k * Cmod (G i k - F i k)%C ^ 2)%R)) by (symmetry; exact E) end. clear E.
  assert (C0 := change_nonneg n Fs Gs). set (D := field_change n Fs Gs) in *.
  assert (Q: (Rabs (rsum N (fun i => rsum n (fun k => w i k * Cmod (G i k - F i k)%C ^ 2))) <= W * D ^ 2)%R).
  { eapply Rle_trans; [apply rsum_abs|]. unfold W. rewrite <- rsum_scal_r. apply rsum_le. intros i Hi. eapply Rle_trans; [apply rsum_abs|]. rewrite <- rsum_scal_r. apply rsum_le. intros k Hk.
    rewrite Rabs_mult, (Rabs_pos_eq (_ ^ 2)) by apply pow2_ge_0. apply Rmult_le_compat_l; [apply Rabs_pos|]. apply pow_incr. split; [apply Cmod_ge_0|].
    unfold D, field_change. fold N. change (fun _ : nat => RtoC 0) with vz.
    eapply Rle_trans; [|apply (rsum_term_le N (fun i => rsum n (fun k => Cmod (List.nth i Gs vz k - List.nth i Fs vz k)%C)) i); [intros; apply rsum_ge0; intros; apply Cmod_ge_0|exact Hi]].
    apply (rsum_term_le n (fun k => Cmod (List.nth i Gs vz k - List.nth i Fs vz k)%C) k); [intros; apply Cmod_ge_0|exact Hk]. }
  eapply Rle_trans; [exact Q|]. replace (W * D ^ 2)%R with (W * D * D)%R by ring. apply Rmult_le_compat_r; [exact C0|].
  apply Rle_trans with ((W + 1) * (eps / (W + 1)))%R; [apply Rmult_le_compat; lra|right; field; lra].
Qed.
Lemma gradient_ext n f1 f2 Fs g1 g2 : (forall Gs, List.length Gs = List.length Fs -> f1 Gs = f2 Gs) ->
  (forall i k, (i < List.length Fs)%nat -> (k < n)%nat -> g1 i k = g2 i k) -> is_gradient n f1 Fs g1 -> is_gradient n f2 Fs g2.
Proof.
  intros Hf Hg H eps He. destruct (H eps He) as (d & D & Q). exists d. split; [exact D|]. intros Gs HL Hd. specialize (Q Gs HL Hd).
  rewrite (Hf Gs HL), (Hf Fs eq_refl) in Q. rewrite (rsum_ext _ _ (fun i => Re (csum n (fun k => (g1 i k * (List.nth i Gs (fun _ : nat => RtoC 0) k - List.nth i Fs (fun _ : nat => RtoC 0) k))%C)))); [exact Q|].
  intros i Hi. f_equal. apply csum_ext. intros k Hk. rewrite (Hg i k Hi Hk). reflexivity.
Qed.
Lemma gradient_const n c Fs : is_gradient n (fun _ => c) Fs (fun _ _ => RtoC 0).
Proof.
  intros eps He. exists 1%R. split; [lra|]. intros Gs HL _. rewrite rsum_0; [|intros i _; rewrite Re_csum; apply rsum_0; intros k _; autorewrite with reim; cbn [Re Im RtoC fst snd]; ring].
  replace (c - c - 0)%R with 0%R by ring. rewrite Rabs_R0. apply Rmult_le_pos; [lra|apply change_nonneg].
Qed.
Lemma weighed_gradient n P F : is_gradient n (fun Fs => weighed Squared n (List.nth 0 Fs vzero) P) [F] (fun _ => intensity_grad F P).
Proof.
  apply (gradient_ext n (quadratic n (fun _ k => P k ^ 2)%R) _ _ (fun i k => (RtoC (2 * P k ^ 2) * Cconj (List.nth i [F] vz k))%C)); [| |apply quadratic_gradient].
  - intros Gs HL. rewrite weighed_form. unfold quadratic. rewrite HL. cbn [List.length rsum]. rewrite Rplus_0_l. reflexivity.
  - intros i k Hi _. destruct i; [reflexivity|cbn in Hi; lia].
Qed.
Lemma product_gradient n M F Ps : forall acc dacc f,
  is_gradient M f [F] (fun _ => dacc) -> f [F] = acc ->
  is_gradient M (fun Fs => fold_left (fun a t => a * (n * t))%R (List.map (weighed Squared M (List.nth 0 Fs vzero)) Ps) (f Fs)) [F]
    (fun _ => product_grad n M F acc dacc Ps).
Proof.
  induction Ps as [|P Ps IH]; intros acc dacc f Hf Ha; cbn [List.map fold_left product_grad]; [exact Hf|].
  apply (IH _ _ (fun Fs => f Fs * (n * weighed Squared M (List.nth 0 Fs vzero) P))%R); [|cbn [List.nth]; rewrite Ha; reflexivity].
  eapply gradient_ext; [| |apply (gradient_product M f (fun Fs => n * weighed Squared M (List.nth 0 Fs vzero) P)%R [F] (fun _ => dacc) (fun _ k => RtoC n * intensity_grad F P k)%C Hf)].
  - reflexivity.
  - intros i k _ _. cbn [List.nth]. rewrite Ha, !RtoC_mult. ring.
  - eapply gradient_ext; [| |apply (gradient_product M (fun _ => n) (fun Fs => weighed Squared M (List.nth 0 Fs vzero) P) [F] _ _ (gradient_const M n [F]) (weighed_gradient M P F))].
    + reflexivity.
    + intros i k _ _. cbn [List.nth]. ring.
Qed.

(** The gradients that autograd computes for the objectives of the notebooks are the gradients of
    these functions, at all fields. *)
Theorem C122_splitter : forall M Ps J_top J_bot F,
  is_gradient M (pf_val (splitter_N M Ps)) [F] (fun i => pf_grad (splitter_N M Ps) i [F]) /\
  is_gradient M (pf_val (splitter M J_top J_bot)) [F] (fun i => pf_grad (splitter M J_top J_bot) i [F]).
Proof.
  intros M Ps Jt Jb F. split.
  - cbn [splitter_N pf_val pf_grad List.nth]. apply (product_gradient _ M F Ps 1%R vzero (fun _ => 1%R)); [apply gradient_const|reflexivity].
  - cbn [splitter pf_val pf_grad List.nth]. eapply gradient_ext; [| |apply (gradient_product M (fun Fs => 4 * weighed Squared M (List.nth 0 Fs vzero) Jt)%R (fun Fs => weighed Squared M (List.nth 0 Fs vzero) Jb) [F] (fun _ k => RtoC 4 * intensity_grad F Jt k)%C (fun _ => intensity_grad F Jb)); [|apply (weighed_gradient M Jb F)]].
    + intros Gs _. cbv beta zeta. change (@List.nth vec) with (@List.nth (nat -> C)). ring.
    + intros i k _ _. cbn [List.nth]. rewrite !RtoC_mult. ring.
    + eapply gradient_ext; [| |apply (gradient_product M (fun _ => 4%R) _ [F] _ _ (gradient_const M 4 [F]) (weighed_gradient M Jt F))].
      * reflexivity.
      * intros i k _ _. cbn [List.nth]. ring.
Qed.
Theorem C122_switch : forall M J_out J_right J_top F F_nl,
  is_gradient M (pf_val (two_port_J M J_out)) [F; F_nl] (fun i => pf_grad (two_port_J M J_out) i [F; F_nl]) /\
  is_gradient M (pf_val (T_port_J M J_right J_top)) [F; F_nl] (fun i => pf_grad (T_port_J M J_right J_top) i [F; F_nl]).
Proof.
  intros M Jo Jr Jt F Fn. split.
  - eapply gradient_ext; [| |apply (quadratic_gradient M (fun i k => (if Nat.eqb i 0 then 1 else -1) * Jo k)%R)].
    + intros Gs HL. cbn [two_port_J pf_val]. cbv beta zeta. change (@List.nth vec) with (@List.nth (nat -> C)). rewrite !weighed_form. unfold quadratic. rewrite HL. cbn [List.length rsum Nat.eqb]. rewrite Rplus_0_l, <- !rsum_scal. change vz with vzero. f_equal; apply rsum_ext; intros; ring.
    + intros i k _ _. cbn [two_port_J pf_grad]. change vz with vzero. f_equal. f_equal. ring.
  - eapply gradient_ext; [| |apply (quadratic_gradient M (fun i k => (if Nat.eqb i 0 then 1 else -1) * (Jr k - Jt k) / 2)%R)].
    + intros Gs HL. cbn [T_port_J pf_val]. cbv beta zeta. change (@List.nth vec) with (@List.nth (nat -> C)). rewrite !weighed_form. unfold quadratic. rewrite HL. cbn [List.length rsum Nat.eqb]. rewrite Rplus_0_l. change vz with vzero.
      unfold Rdiv. rewrite <- !rsum_scal, <- !rsum_plus, <- rsum_scal_r. apply rsum_ext. intros; ring.
    + reflexivity.
Qed.

Theorem C122_three_port : forall M J_top J_bot F F_nl,
  is_gradient M (pf_val (three_port_J M J_top J_bot)) [F; F_nl] (fun i => pf_grad (three_port_J M J_top J_bot) i [F; F_nl]).
Proof.
  intros M Jr Jt F Fn.
  eapply gradient_ext; [| |apply (quadratic_gradient M (fun i k => (if Nat.eqb i 0 then 1 else -1) * (Jr k - Jt k) / 2)%R)].
  - intros Gs HL. cbn [three_port_J pf_val]. cbv beta zeta. change (@List.nth vec) with (@List.nth (nat -> C)). rewrite !weighed_form. unfold quadratic. rewrite HL. cbn [List.length rsum Nat.eqb]. rewrite Rplus_0_l. change vz with vzero.
    unfold Rdiv. rewrite <- !rsum_scal, <- !rsum_minus, <- !rsum_plus, <- rsum_scal_r. apply rsum_ext. intros; ring.
  - reflexivity.
Qed.


Lemma compute_J_args e o s st1 J0 J args : o_objective o = set_J J args -> compute_J e (o, s) = (st1, Ok J0) -> List.length (stored_args (fst st1)) = pf_arity J.
Proof.
  intros Ho H. assert (F := H). destruct st1 as [o1 s1]. apply compute_J_frame in F as (C & _). unfold compute_J in H. cbv beta iota delta [bind getS lift] in H.
  destruct (solve_arg_fields e (o, s)) as [st2 [[]|]]; [|discriminate]. 
  unfold pf_call in H. destruct (Nat.eqb_spec (List.length (stored_args (fst st2))) (pf_arity (ob_J (o_objective (fst st2))))) as [E|]; [|discriminate].
  injection H as -> _. cbn [fst] in *. rewrite E.
  assert (EO: o_objective o1 = o_objective o) by (exact (proj1 C)).
  rewrite EO, Ho. reflexivity.
Qed.
Lemma one_list {T} (l : list T) : List.length l = 1%nat -> exists x, l = [x].
Proof. destruct l as [|x [|]]; try discriminate. eauto. Qed.
Lemma two_list {T} (l : list T) : List.length l = 2%nat -> exists x y, l = [x; y].
Proof. destruct l as [|x [|y [|]]]; try discriminate. eauto. Qed.

(** The gradient of the splitters: what compute_dJ returns for the design of Splitter.ipynb or
    Splitter_4.ipynb is the derivative of the objective with respect to the density of each pixel
    of the design region (C35 without its assumption on the objective). *)
Theorem C122_splitter_gradient :
  forall e o s rho J Ps J_top J_bot a ob,
  solver_exact e ->
  s_pol s = PolEz -> consistent s -> nd_size (s_src s) = s_M s -> nonsingular (s_M s) (s_A s) ->
  s_rho s = Val rho -> in_step o s rho ->
  J = splitter_N (s_M s) Ps \/ J = splitter (s_M s) J_top J_bot ->
  new_obj_arg "Ez" false = Ok a -> Objective J [a] = Ok ob -> o_objective o = ob ->
  o_W o = rId -> o_current o = false -> (0 < o_beta o)%R -> (0 <= o_eta o <= 1)%R ->
  exists st1 g, compute_dJ e (o, s) = (st1, Ok g) /\
  forall p, (p < s_M s)%nat ->
    (o_design o p = 1%R -> exists Jt, objective_of_pixel e o s rho p Jt /\ is_derive Jt 0%R (g p)) /\
    (o_design o p = 0%R -> g p = 0%R).
Proof.
  intros e o s rho J Ps Jt Jb a ob He Hp HC Hs HN Hr Hst HJ Ha Hob Ho HW Hc Hb Het.
  apply (C35_linear_Ez_gradient e o s rho J [a] ob); try assumption.
  - intros b [<-|[]]. exact Ha.
  - intros st1 J0 H. destruct (Objective_ok _ _ _ Hob) as [EO _]. rewrite EO in Ho.
    assert (L := compute_J_args _ _ _ _ _ _ _ Ho H). assert (AR: pf_arity J = 1%nat) by (destruct HJ as [-> | ->]; reflexivity). rewrite AR in L.
    apply one_list in L as [F ->]. destruct HJ as [-> | ->]; apply (C122_splitter (s_M s) Ps Jt Jb F).
Qed.
(** The gradient of the switches, once the forward solve has reached the nonlinear solution (C37
    without its assumption on the objective). *)
Theorem C122_switch_gradient :
  forall e o s rho J J_out J_right J_top a a_nl ob st1 J0 En,
  solver_exact e ->
  s_pol s = PolEz -> consistent s -> s_rho s = Val rho -> in_step o s rho -> nonsingular (s_M s) (s_A s) ->
  J = two_port_J (s_M s) J_out \/ J = T_port_J (s_M s) J_right J_top \/ J = three_port_J (s_M s) J_right J_top ->
  new_obj_arg "Ez" false = Ok a -> new_obj_arg "Ez" true = Ok a_nl -> Objective J [a; a_nl] = Ok ob -> o_objective o = ob ->
  o_W o = rId -> o_current o = false -> (0 < o_beta o)%R -> (0 <= o_eta o <= 1)%R ->
  compute_J e (o, s) = (st1, Ok J0) -> s_fields_nl (snd st1) Ez = Some En ->
  nonlinear_solution s En -> nl_current (snd st1) En ->
  widely_injective (s_M s) (nl_jac11 s En) (nl_jac12 s En) ->
  exists st2 g, compute_dJ e (o, s) = (st2, Ok g) /\
  forall p, (p < s_M s)%nat ->
    (o_design o p = 1%R ->
       (exists X, solution_branch o s rho p En X) /\
       forall X, solution_branch o s rho p En X ->
         is_derive (fun t => pf_val J [linear_field e (with_density o s (rho_at rho p t)) Ez; X t]) 0%R (g p)) /\
    (o_design o p = 0%R -> g p = 0%R).
Proof.
  intros e o s rho J Jo Jr Jt a an ob st1 J0 En He Hp HC Hr Hst HN HJ Ha Han Hob Ho HW Hc Hb Het H HEn HNS HNC HI.
  assert (HG: is_gradient (s_M s) (pf_val J) (stored_args (fst st1)) (fun i => pf_grad J i (stored_args (fst st1)))).
  { destruct (Objective_ok _ _ _ Hob) as [EO _]. rewrite EO in Ho.
    assert (L := compute_J_args _ _ _ _ _ _ _ Ho H). assert (AR: pf_arity J = 2%nat) by (destruct HJ as [-> | [-> | ->]]; reflexivity). rewrite AR in L.
    apply two_list in L as (F & G & ->). destruct HJ as [-> | [-> | ->]]; [apply (C122_switch (s_M s) Jo Jr Jt F G)|apply (C122_switch (s_M s) Jo Jr Jt F G)|apply C122_three_port]. }
  destruct (C37_mixed_gradient e o s rho J [a; an] ob st1 J0 En He Hp HC Hr Hst Hob Ho) as (st2 & g & E & R); try assumption.
  - exists an. split; [right; left; reflexivity|exact Han].
  - intros b [<-|[<-|[]]]; [right|left; exact Han]. split; [exact HN|]. exists "Ez". split; [left; reflexivity|exact Ha].
  - exists st2, g. split; [exact E|]. intros p Hp'. destruct (R p Hp') as [R1 R2]. split; [|exact R2]. intro Hd. destruct (R1 Hd) as [R3 R4]. split; [exact R3|].
    intros X HX. specialize (R4 X HX). unfold new_obj_arg in Ha, Han. cbn in Ha, Han. injection Ha as <-. injection Han as <-. exact R4.
Qed.

(* ------------------------------------------------------------------ *)
(** ** Examples *)

(** a guide of 9 x 6 pixels: a field that vanishes wherever the source does not, vanishes *)
Lemma ex_guide_field s0 (X b : vec) : fam_sim "Ez" 9 6 0 0 two_eps = Ok s0 -> solves (s_M s0) (s_A s0) X b ->
  (forall k, (k < s_M s0)%nat -> b k <> RtoC 0 -> X k = RtoC 0) -> forall k, (k < s_M s0)%nat -> b k = RtoC 0.
Proof.
  intros HS HX Hz. destruct (fam_basic _ _ _ _ HS) as (Hp & Hd & HL & Ho & Ex & Ey & Ee & Es & HQ).
  assert (EM: s_M s0 = 54%nat) by (unfold s_M; rewrite Ex, Ey; reflexivity). rewrite EM in *. rewrite solves_mv in HX.
  assert (U: uniform_sim ex_omega (mkNd 9 6 two_eps) 1 "Ez" 1 2 s0) by (repeat split; cbn; try lra; try lia; exact HS).
  destruct (max_index 54 X ltac:(lia)) as (p & Hpl & Hmax).
  assert (X0: X p = RtoC 0).
  { destruct (Ceq_dec (b p) (RtoC 0)) as [B0|B0]; [|apply Hz; assumption].
    destruct (pix_bound 9 6 p Hpl) as (i & j & Hi & Hj & ->).
    assert (R := u_A _ _ _ _ _ _ _ U X i j Hi Hj). change (nd_nx (mkNd 9 6 two_eps) * nd_ny (mkNd 9 6 two_eps))%nat with 54%nat in R. cbn [nd_nx nd_ny] in R. rewrite (HX _ Hpl), B0 in R. clear HX Hz.
    change (String.eqb "Ez" "Ez") with true in R. cbn iota in R. unfold inertia in R.
    assert (HM: medium ex_omega 1 2 = 32%R). { rewrite medium_is. transitivity (2 * (ex_omega ^ 2 * (EPSILON_0 * MU_0)))%R; [ring|]. rewrite ex_omega_sq. ring. }
    rewrite HM in R. unfold laplacian in R.
    set (xp := X (pix 6 i j)) in *.
    set (xe := X (pix 6 (next 9 i) j)) in *. set (xw := X (pix 6 (prev 9 i) j)) in *.
    set (xn := X (pix 6 i (next 6 j))) in *. set (xs := X (pix 6 i (prev 6 j))) in *.
    assert (Hb: (Cmod xe <= Cmod xp /\ Cmod xw <= Cmod xp /\ Cmod xn <= Cmod xp /\ Cmod xs <= Cmod xp)%R).
    { repeat split; apply Hmax; change 54%nat with (9 * 6)%nat; apply flat_lt; try assumption; (apply next_lt || apply prev_lt); assumption. }
    assert (Hmu := MU_0_pos).
    symmetry in R. apply Cmult_integral in R as [R|R].
    { apply (f_equal Re) in R. cbn [Re RtoC fst] in R. assert (Q: (0 < 1 / (MU_0 * 1))%R) by (apply Rdiv_lt_0_compat; lra). lra. }
    assert (E: (RtoC 28 * xp)%C = (- (xe + xw + xn + xs))%C).
    { replace (1 * 1)%R with 1%R in R by ring.
      match type of R with ?Z = _ => transitivity (Z - (xe + xw + xn + xs))%C end.
      - replace 28%R with (32 - 4)%R by ring. rewrite RtoC_minus. field. apply RtoC_neq0. lra.
      - rewrite R. ring. }
    apply (f_equal Cmod) in E. rewrite Cmod_mult, Cmod_R, Cmod_opp in E.
    assert (T := Cmod_triangle4 xe xw xn xs). rewrite Rabs_pos_eq in E by lra.
    apply Cmod_eq_0. assert (0 <= Cmod xp)%R by apply Cmod_ge_0. lra. }
  intros k Hk. rewrite <- (HX k Hk). unfold mv. apply csum_0. intros q Hq.
  assert (Q: X q = RtoC 0). { apply Cmod_eq_0. assert (H := Hmax q Hq). rewrite X0, Cmod_0 in H. assert (0 <= Cmod (X q))%R by apply Cmod_ge_0. lra. }
  rewrite Q. ring.
Qed.
(** the notebook's steps on the guide: the mode of every amplitude can be placed *)
Lemma ex_placed : let e := sign_env (fun _ => RtoC (/ sqrt 3)) in
  exists s0 s1, fam_sim "Ez" 9 6 0 0 two_eps = Ok s0 /\
  (forall x, exists s, placed e ex_omega (mkNd 9 6 two_eps) 1 [0; 0]%Z 1 (with_scale mid_mode x) = Ok s) /\
  placed e ex_omega (mkNd 9 6 two_eps) 1 [0; 0]%Z 1 mid_mode = Ok s1 /\ nd_size (s_src s1) = s_M s1 /\
  nonsingular (s_M s1) (s_A s1) /\ s_M s1 = s_M s0 /\ s_A s1 = s_A s0 /\ s_omega s1 = s_omega s0 /\ nd_buf (s_src s1) 14%nat <> RtoC 0 /\ s_M s1 = 54%nat.
Proof.
  intro e. destruct (fam_sim_ok "Ez" 9 6 0 0 two_eps (or_introl eq_refl)) as [s0 HS].
  destruct (fam_plain _ _ _ _ HS ltac:(lia) ltac:(lia) ltac:(intros; unfold two_eps; lra)) as (_ & HR & HN & _).
  destruct (fam_basic _ _ _ _ HS) as (Hp & Hd & HL & Ho & Ex & Ey & Ee & Es & HQ).
  destruct (uniform_straight 9 s0 HS ltac:(lia)) as (PT & NT & T1 & T2).
  destruct (uniform_mode_set_up (/ sqrt 3) 9 s0 (s_src s0) ltac:(rewrite <- third; unfold Rsqr; ring) HS ltac:(lia) ltac:(rewrite Es; reflexivity) ltac:(rewrite Es; reflexivity)) as (s1 & ? & ? & ? & ? & W & R1 & V1 & _ & _ & _ & _ & W1 & _).
  assert (ES: upd_src (s_src s0) s0 = s0) by (destruct s0; reflexivity). rewrite ES in R1. fold e in R1.
  assert (EM0: s_modes s0 = []) by (unfold fam_sim, Simulation in HS; destruct (check_inputs _ _ _ _); [injection HS as <-; reflexivity|discriminate]).
  assert (HC: straight_solvable mid_mode s0).
  { intros eps c EN. unfold norm_structure in EN. change (md_normal mid_mode) with "x" in EN. change (String.eqb "x" "x") with true in EN. cbn iota in EN.
    change (fst (md_center mid_mode)) with 2%Z in EN. unfold py_index in EN. rewrite Ee in EN. cbn [nd_nx nd_ny] in EN.
    change ((- Z.of_nat 9 <=? 2)%Z && (2 <? Z.of_nat 9)%Z)%bool with true in EN. cbn iota in EN. change (2 <? 0)%Z with false in EN. cbn iota in EN. change (Z.to_nat 2) with 2%nat in EN.
    injection EN as <- _.
    replace (set_eps _ s0) with (norm_sim mid_mode s0 2); [exact NT|]. unfold norm_sim. rewrite Ex, Ey, Ee. reflexivity. }
  assert (H0: no_other_source mid_mode s0) by (intros i j _ _ _; rewrite Es; reflexivity).
  assert (R1' := R1). unfold setup_src in R1'.
  destruct (compute_normalization e mid_mode s0) as [W0|] eqn:EW; [|discriminate]. cbv zeta in R1'.
  destruct (insert_mode e mid_mode (upd_W_in W0 s0) _) as [src|] eqn:EI; [|discriminate].
  change (insert_mode e mid_mode s0 (s_src s0) = Ok src) in EI. injection R1' as R1'.
  assert (PL: forall m W' d, compute_normalization e m s0 = Ok W' -> insert_mode e m s0 (s_src s0) = Ok d ->
     placed e ex_omega (mkNd 9 6 two_eps) 1 [0; 0]%Z 1 m = Ok (upd_src d (upd_W_in W' (upd_modes [m] s0)))).
  { intros m W' d EW' EI'. unfold placed. change (Simulation ex_omega (mkNd 9 6 two_eps) 1 (Some [0; 0]%Z) "Ez" 1) with (fam_sim "Ez" 9 6 0 0 two_eps). rewrite HS. cbn [rbind].
    cbv beta iota delta [add_mode modS bind setup_modes]. rewrite EM0. cbn [List.app upd_modes s_modes setup_list bind].
    change (mkSim _ _ _ _ _ _ _ _ _ _ _ _ _ _ _ [m] _ _ _ _ _ _ _) with (upd_modes [m] s0).
    cbv beta iota delta [bind setup_src]. rewrite (PropsScan.norm_modes e m [m] s0), EW'. cbv zeta.
    change (insert_mode e m (upd_W_in W' (upd_modes [m] s0)) _) with (insert_mode e m s0 (s_src s0)). rewrite EI'. reflexivity. }
  exists s0, (upd_src src (upd_W_in W0 (upd_modes [mid_mode] s0))). split; [exact HS|]. split.
  { intro xx. destruct (norm_other e mid_mode 1 xx s0 W0 (sign_env_exact _) ltac:(lra) HC H0 EW) as [Wx EWx]. destruct (insert_other e mid_mode 1 xx s0 _ _ EI) as [dx EIx]. eexists. apply PL; eassumption. }
  split; [apply PL; assumption|].
  assert (H1 := C55_only_the_line_is_written _ _ _ _ R1 0%nat 0%nat ltac:(rewrite Es; cbn; lia) ltac:(rewrite Es; cbn; lia)). destruct H1 as (N1 & N2 & _).
  assert (SS: s_src s1 = src) by (rewrite <- R1'; reflexivity). rewrite SS in *. rewrite Es in N1, N2. cbn [nd_nx nd_ny] in N1, N2.
  assert (EM: s_M s0 = 54%nat) by (unfold s_M; rewrite Ex, Ey; reflexivity).
  split; [change (nd_size src = s_M s0); rewrite EM; unfold nd_size; rewrite N1, N2; reflexivity|].
  split; [exact HN|]. do 3 (split; [reflexivity|]). split; [|exact EM].
  assert (V := V1 2%nat ltac:(lia)). unfold nd_at in V. rewrite N2 in V. change (nd_buf src 14 = mode_profile 1 (fun _ => RtoC (/ sqrt 3)) 1) in V. change (nd_buf src 14 <> RtoC 0). rewrite V.
  unfold mode_profile. intro Q. apply (f_equal Re) in Q. cbn [Re RtoC fst] in Q.
  assert (P: (0 < / sqrt 3)%R) by (apply Rinv_0_lt_compat, sqrt_lt_R0; lra).
  rewrite Cmod_mult, !Cmod_R, Rabs_R1 in Q. autorewrite with reim in Q. cbn [Re Im RtoC fst snd] in Q.
  replace (/ sqrt 3 * 1 - 0 * 0)%R with (/ sqrt 3)%R in Q by ring.
  destruct (np_sign_cases (/ sqrt 3)) as [[? E]|[[? E]|[? E]]]; try lra. rewrite E, Rabs_pos_eq in Q by lra. lra.
Qed.
(** Amplitudes 1 and 2 of the mode of this guide, two ports, the design the guide itself: all
    steps run, the normalization is not zero. *)
Example C121_met : exists e T1 T2 Sx, solver_exact e /\
  let g := mkNd 9 6 two_eps in
  (forall s, placed e ex_omega g 1 [0; 0]%Z 1 (with_scale mid_mode 1) = Ok s -> nonsingular (s_M s) (s_A s)) /\
  (forall s, placed e ex_omega g 1 [0; 0]%Z 1 (with_scale mid_mode 1) = Ok s -> nonsingular (s_M (set_eps g s)) (s_A (set_eps g s))) /\
  guide_scale e Squared ex_omega g 1 [0; 0]%Z 1 mid_mode mid_mode 1 = Ok Sx /\ Sx <> 0%R /\
  transmissions e Squared ex_omega g g g 1 [0; 0]%Z 1 mid_mode [mid_mode; mid_mode] mid_mode mid_mode 1 g = Ok T1 /\
  transmissions e Squared ex_omega g g g 1 [0; 0]%Z 1 mid_mode [mid_mode; mid_mode] mid_mode mid_mode 2 g = Ok T2 /\ List.length T1 = 2%nat.
Proof.
  set (e := sign_env (fun _ => RtoC (/ sqrt 3))). destruct ex_placed as (s0 & s1 & HS & HP & P1 & Z1 & N1 & EM & EA & EO & V1 & E54). fold e in HP, P1.
  set (g := mkNd 9 6 two_eps) in *.
  assert (FG: forall s, placed e ex_omega g 1 [0; 0]%Z 1 mid_mode = Ok s \/ (exists x, placed e ex_omega g 1 [0; 0]%Z 1 (with_scale mid_mode x) = Ok s) ->
     set_eps g s = s /\ nd_size (s_src s) = s_M s).
  { intros s H. assert (Q: exists m, placed e ex_omega g 1 [0; 0]%Z 1 m = Ok s) by (destruct H as [H|[x H]]; eauto). clear H. destruct Q as [m H].
    apply placed_inv in H as (t & W & src & ET & _ & EI & ->). change (fam_sim "Ez" 9 6 0 0 two_eps = Ok t) in ET. rewrite HS in ET. injection ET as <-.
    destruct (fam_basic _ _ _ _ HS) as (_ & _ & _ & _ & Ex & Ey & Ee & Es & _). split.
    - clear - HS. unfold fam_sim, Simulation in HS. destruct (check_inputs _ _ _ _); [|discriminate]. injection HS as <-. reflexivity.
    - apply insert_shape in EI as [I1 I2]. change (nd_size src = s_M s0). unfold nd_size, s_M. rewrite I1, I2, Es, Ex, Ey. reflexivity. }
  assert (EZ: forall s, nd_size (s_src s) = s_M s -> exists X, Ez_of e s = Ok X /\ (nonsingular (s_M s) (s_A s) -> solves (s_M s) (s_A s) X (rhs s))).
  { intros s Hs. destruct (solve_fields_lin e false s Hs) as (X & HX & HF). cbv zeta in HF. exists X. unfold Ez_of. rewrite HF. split; [reflexivity|].
    intro HN. eapply solver_direct_correct; [apply sign_env_exact|exact HN|exact HX]. }
  destruct (EZ s1 Z1) as (X1 & EX1 & SX1). specialize (SX1 N1).
  destruct (HP 2%R) as [s2 P2]. destruct (FG s2 (or_intror (ex_intro _ 2%R P2))) as [G2 Z2]. destruct (FG s1 (or_introl P1)) as [G1 _].
  destruct (EZ s2 Z2) as (X2 & EX2 & _).
  assert (P1': placed e ex_omega g 1 [0; 0]%Z 1 (with_scale mid_mode 1) = Ok s1) by exact P1.
  assert (GS: guide_scale e Squared ex_omega g 1 [0; 0]%Z 1 mid_mode mid_mode 1 = Ok (weighed Squared (s_M s1) X1 (profile s1))).
  { unfold guide_scale. rewrite P1', P1. cbn [rbind]. rewrite EX1. reflexivity. }
  assert (PS: profiles e ex_omega g 1 [0; 0]%Z 1 [mid_mode; mid_mode] = Ok [profile s1; profile s1]) by (cbn [profiles]; rewrite P1; reflexivity).
  exists e. do 2 eexists. exists (weighed Squared (s_M s1) X1 (profile s1)). split; [apply sign_env_exact|]. cbv zeta.
  split. { intros s H. rewrite P1' in H. injection H as <-. exact N1. }
  split. { intros s H. rewrite P1' in H. injection H as <-. rewrite G1. exact N1. }
  split; [exact GS|]. split.
  { intro HZ. rewrite weighed_form in HZ. rewrite EM, EA in SX1.
    assert (VB := ex_guide_field s0 X1 (rhs s1) HS SX1).
    assert (OM: s_omega s1 <> 0%R). { rewrite EO. destruct (fam_basic _ _ _ _ HS) as (_ & _ & _ & -> & _). assert (Q := ex_omega_pos). lra. }
    assert (RH: forall k, rhs s1 k = (nd_buf (s_src s1) k * Ci * RtoC (s_omega s1))%C) by reflexivity.
    apply V1. assert (B: rhs s1 14%nat = RtoC 0).
    { apply VB; [|rewrite <- EM, E54; lia]. intros k Hk Hb.
      destruct (Ceq_dec (X1 k) (RtoC 0)) as [|NX]; [assumption|exfalso].
      assert (Q: (0 < rsum (s_M s1) (fun k => profile s1 k ^ 2 * Cnorm2 (X1 k)))%R); [|lra].
      apply rsum_pos. { intros q _. apply Rmult_le_pos; [apply pow2_ge_0|rewrite <- Cmod2; apply pow2_ge_0]. }
      exists k. split; [rewrite EM; exact Hk|]. apply Rmult_lt_0_compat.
      - apply pow_lt. unfold profile. apply Cmod_gt_0. intro Q. apply Hb. rewrite RH, Q. ring.
      - rewrite <- Cmod2. apply pow_lt, Cmod_gt_0, NX. }
    rewrite RH in B. apply Cmult_integral in B as [B|B]; [|exfalso; apply (RtoC_neq0 _ OM B)].
    apply Cmult_integral in B as [B|B]; [exact B|]. exfalso. apply (f_equal Im) in B. cbn in B. lra. }
  split. { unfold transmissions. rewrite P1'. cbn [rbind]. rewrite PS. cbn [rbind]. rewrite GS. cbn [rbind]. rewrite G1, EX1. reflexivity. }
  split. { unfold transmissions. rewrite P2. cbn [rbind]. rewrite PS. cbn [rbind]. unfold guide_scale. rewrite P2, P1. cbn [rbind]. rewrite EX2. cbn [rbind]. rewrite G2, EX2. reflexivity. }
  reflexivity.
Qed.
(** two ports of one pixel each that share the power equally; light that goes to the right in the
    linear case and to the top in the nonlinear one *)
Definition one_pixel (p : nat) : rvec := fun k => if Nat.eqb k p then 1%R else 0%R.
Example C121_split_met : let Ps := [one_pixel 0; one_pixel 1] in let F : vec := fun _ => RtoC (sqrt (/ 2)) in
  Ps <> [] /\ total (port_powers 2 F Ps) = 1%R /\ List.Forall (fun t => t = (1 / INR (List.length Ps))%R) (port_powers 2 F Ps).
Proof.
  intros Ps F. assert (Q: Cnorm2 (RtoC (sqrt (/ 2))) = (/ 2)%R). { unfold Cnorm2, RtoC, Re, Im. cbn [fst snd]. transitivity (sqrt (/ 2) * sqrt (/ 2))%R; [ring|]. apply sqrt_sqrt. lra. }
  assert (T: port_powers 2 F Ps = [/ 2; / 2]%R).
  { unfold port_powers, Ps. cbn [List.map]. rewrite !weighed_form. unfold F. cbn [rsum one_pixel Nat.eqb]. rewrite Q. f_equal; [|f_equal]; field. }
  split; [discriminate|]. rewrite T. split; [cbn; field|]. cbn. repeat constructor; field.
Qed.
Example C121_switch_met : let e : vec := fun k => RtoC (one_pixel 0 k) in let e_nl : vec := fun k => RtoC (one_pixel 1 k) in
  (forall k, (k < 2)%nat -> (0 <= one_pixel 0 k)%R /\ (0 <= one_pixel 1 k)%R) /\
  weighed Plain 2 e (one_pixel 0) = 1%R /\ weighed Plain 2 e (one_pixel 1) = 0%R /\
  weighed Plain 2 e_nl (one_pixel 0) = 0%R /\ weighed Plain 2 e_nl (one_pixel 1) = 1%R.
Proof.
  intros e e_nl. split. { intros k _. unfold one_pixel. destruct (Nat.eqb k 0), (Nat.eqb k 1); lra. }
  rewrite !weighed_form. unfold e, e_nl, Cnorm2, RtoC, Re, Im. cbn [rsum one_pixel Nat.eqb fst snd]. repeat split; ring.
Qed.

(** the 5 x 4 device of C35 with a splitter into two pixels *)
Example C122_splitter_met :
  let J := splitter_N 20 [one_pixel 5; one_pixel 14] in
  exists s0 a ob o, fam_sim "Ez" 5 4 1 1 (fun _ => 1%R) = Ok s0 /\ new_obj_arg "Ez" false = Ok a /\ Objective J [a] = Ok ob /\
  Optimization ob s0 ex_design 5 None (1 / 2) 10 "linear" "hybrid" None = Ok o /\
  let s := with_density o (upd_src (mkNd 5 4 ex_src) s0) ex_rho in
  s_pol s = PolEz /\ consistent s /\ nd_size (s_src s) = s_M s /\ nonsingular (s_M s) (s_A s) /\
  s_rho s = Val ex_rho /\ in_step o s ex_rho /\ J = splitter_N (s_M s) [one_pixel 5; one_pixel 14] /\ o_objective o = ob /\ o_W o = rId /\ o_current o = false /\
  (0 < o_beta o)%R /\ (0 <= o_eta o <= 1)%R /\ (9 < s_M s)%nat /\ o_design o 9%nat = 1%R /\ o_design o 8%nat = 0%R.
Proof.
  intro J. destruct (fam_sim_ok "Ez" 5 4 1 1 (fun _ => 1%R) (or_introl eq_refl)) as [s0 H0].
  exists s0. do 3 eexists. split; [exact H0|]. split; [reflexivity|]. split; [reflexivity|]. split; [reflexivity|]. intro s.
  destruct (fam_facts 5 4 1 1 (fun _ => 1%R) s0 (mkOpt (set_J J [mkArg Ez false grad_linear_Ez])
     ex_design rId (1 / 2) 10 5 "linear" "hybrid" None [] [] false None) ex_src ex_rho H0) as (F1 & F2 & F3 & F4 & F5 & F6 & F7 & _); try lia.
  - intros k Hk. apply fam_eps_ge1; try (cbn; lra); [exact Hk|]. unfold ex_rho. destruct (Nat.eqb k 9); [|destruct (Nat.eqb k 10)]; lra.
  - cbv zeta in F7. cbn [o_objective o_W o_current o_beta o_eta o_design].
    assert (F8: s_M s = 20%nat) by exact F7. rewrite F8 at 4.
    split; [exact F1|]. split; [exact F2|]. split; [exact F3|]. split; [exact F4|]. split; [exact F5|]. split; [exact F6|].
    split; [rewrite ?F8; reflexivity|].
    split; [reflexivity|]. split; [reflexivity|]. split; [reflexivity|]. split; [lra|]. split; [lra|]. split; [rewrite ?F8; lia|split; reflexivity].
Qed.

(** the 5 x 4 Kerr medium of C37 with the objective of the T port *)
Example C122_switch_met :
  let J := T_port_J 20 (one_pixel 5) (one_pixel 14) in
  exists s0 a a_nl ob o st1 J0 En, fam_sim "Ez" 5 4 1 1 (fun _ => 1%R) = Ok s0 /\
  new_obj_arg "Ez" false = Ok a /\ new_obj_arg "Ez" true = Ok a_nl /\ Objective J [a; a_nl] = Ok ob /\
  Optimization ob s0 ex_design 5 None (1 / 2) 10 "linear" "hybrid" None = Ok o /\
  let s := ex_J_nl s0 in
  s_pol s = PolEz /\ consistent s /\ s_rho s = Val (fun _ => 0%R) /\ in_step o s (fun _ => 0%R) /\ nonsingular (s_M s) (s_A s) /\
  J = T_port_J (s_M s) (one_pixel 5) (one_pixel 14) /\ o_objective o = ob /\ o_W o = rId /\ o_current o = false /\
  (0 < o_beta o)%R /\ (0 <= o_eta o <= 1)%R /\
  compute_J ex_env (o, s) = (st1, Ok J0) /\ s_fields_nl (snd st1) Ez = Some En /\
  nonlinear_solution s En /\ nl_current (snd st1) En /\ widely_injective (s_M s) (nl_jac11 s En) (nl_jac12 s En) /\
  (9 < s_M s)%nat /\ o_design o 9%nat = 1%R /\ o_design o 8%nat = 0%R /\ s_eps_nl (snd st1) 9%nat <> 0%R.
Proof.
  intro J. destruct (fam_sim_ok "Ez" 5 4 1 1 (fun _ => 1%R) (or_introl eq_refl)) as [s0 H0].
  destruct (ex_J_nl_facts s0 H0) as (EP & HC & EM & ES & EO & EL & EE & ED & Eeps & EA & ER).
  destruct (ex_J_lin s0 H0) as [NL SL].
  destruct (ex_J_solve ex_env s0 (ex_J_nl s0) ex_env_exact H0 eq_refl) as (s2 & F & HS & En & HE1 & HE2 & HE3 & HE4 & HE5).
  set (o := mkOpt (set_J J [mkArg Ez false grad_linear_Ez; mkArg Ez true grad_kerr_Ez])
     ex_design rId (1 / 2) 10 5 "linear" "hybrid" None [] [] false None).
  assert (HL: s_fields s2 Ez = Some (lin_solution ex_env (ex_J_nl s0))) by (rewrite HE4; unfold solved; rewrite EP; reflexivity).
  set (l := [lin_solution ex_env (ex_J_nl s0); En]).
  exists s0. do 3 eexists. exists o, (upd_arglist l o, s2), (pf_val J l), En.
  split; [exact H0|]. split; [reflexivity|]. split; [reflexivity|]. split; [reflexivity|]. split; [reflexivity|]. cbv zeta.
  split; [exact EP|]. split; [exact HC|]. split; [reflexivity|].
  split. { intros k Hk. rewrite Eeps. symmetry. apply (C25_permittivity_in_range (s_M (ex_J_nl s0)) (fun _ => 0%R) 5 (1 / 2) 10); try lra; try reflexivity; exact Hk. }
  split; [rewrite EM; exact NL|]. split; [rewrite EM; reflexivity|].
  split; [reflexivity|]. split; [reflexivity|]. split; [reflexivity|]. split; [cbn; lra|]. split; [cbn; lra|].
  split.
  { unfold compute_J, bind, solve_arg_fields, needs_solve. cbn [o o_current negb]. 
    assert (Hs: nd_size (s_src (ex_J_nl s0)) = s_M (ex_J_nl s0)) by (rewrite EM; exact ES).
    destruct (solve_fields_lin ex_env false (ex_J_nl s0) Hs) as [X [HX HE]]. cbv zeta in HE. rewrite HE.
    assert (HXs: lin_solution ex_env (ex_J_nl s0) = X) by (unfold lin_solution; rewrite HX; reflexivity). rewrite <- HXs.
    change (upd_fields _ (ex_J_nl s0)) with (solved ex_env (ex_J_nl s0)).
    change (is_linear (o_objective o)) with false. cbv iota. rewrite HS.
    assert (HA: arg_fields s2 (ob_args (o_objective o)) = Ok l).
    { cbn [o o_objective set_J ob_args arg_fields oa_nl oa_comp]. rewrite HE1, HL. reflexivity. }
    rewrite HA. reflexivity. }
  cbn [fst snd].
  split; [exact HE1|]. split.
  { apply nonlinear_solution_solves. rewrite EM, solves_mv. intros k Hk.
    assert (Hn: Cnorm2 (En k) = 1%R) by (rewrite (HE2 k Hk); unfold Cnorm2; simpl; ring).
    transitivity (mv 20 (nl_matrix (ex_J_nl s0) En) (fun _ => RtoC (-1)) k).
    - unfold mv. apply csum_ext. intros j Hj. rewrite (HE2 j Hj). reflexivity.
    - rewrite (ex_J_apply s0 En (RtoC (-1)) k H0 Hk Hn), ER. replace (RtoC (-1)) with (- RtoC 1)%C by (apply C_ext; simpl; lra). ring. }
  split; [exact HE3|]. split; [rewrite EM; apply ex_J_jac; assumption|].
  split; [rewrite EM; lia|]. split; [reflexivity|]. split; [reflexivity|]. rewrite HE5. lra.
Qed.
