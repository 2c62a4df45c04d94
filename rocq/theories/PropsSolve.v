(** C07-C12: reciprocity, power balance, Maxwell equations, linearity, Helmholtz stencil,
    nonlinear permittivity. *)
From Coq Require Import Reals Lra Lia List ZArith Arith Bool String.
From Coquelicot Require Import Coquelicot.
From Verif Require Import Base Linear MCore MSim Spec PCore PSim PEx PropsCore.
Import ListNotations.

(** matrix handed to the solver by solve_fields, and permittivity used for the other
    components *)
Definition used_matrix (inc : bool) (s : sim) : mat :=
  if inc then match s_Anl s with Some (_, An) => mplus (s_A s) An | None => s_A s end else s_A s.
Definition used_eps (inc : bool) (s : sim) : vec :=
  if inc then fun k => (s_epsC s k + RtoC (s_eps_nl s k))%C else s_epsC s.
Lemma solve_fields_ok e inc av s s' a b X :
  solve_fields e inc av s = (s', Ok (a, b, X)) ->
  nd_size (s_src s) = s_M s /\
  solver_direct e (s_M s) (used_matrix inc s) (rhs s) (DEFAULT_SOLVER e) = Ok X /\
  (a, b) = derived_fields s (used_eps inc s) av X /\
  (inc = true -> exists m An, s_Anl s = Some (m, An) /\ m = s_M s).
Proof.
  unfold solve_fields, used_matrix, used_eps. destruct inc.
  - destruct (s_Anl s) as [[m An]|]; [|discriminate].
    destruct (Nat.eqb_spec m (s_M s)) as [Em|]; [|discriminate].
    destruct (Nat.eqb_spec (nd_size (s_src s)) (s_M s)); [|discriminate]. cbn [negb].
    destruct (solver_direct _ _ _ _ _) as [Y|]; [|discriminate].
    destruct (derived_fields _ _ _ _) as [a' b'] eqn:ED. intro H; injection H as <- <- <- <-.
    repeat split; try assumption; try reflexivity. rewrite <- ED; reflexivity. intros _. exists m, An; auto.
  - destruct (Nat.eqb_spec (nd_size (s_src s)) (s_M s)); [|discriminate]. cbn [negb].
    destruct (solver_direct _ _ _ _ _) as [Y|]; [|discriminate].
    destruct (derived_fields _ _ _ _) as [a' b'] eqn:ED. intro H; injection H as <- <- <- <-.
    repeat split; try assumption; try reflexivity. rewrite <- ED; reflexivity. discriminate.
Qed.
Lemma solve_fields_solves e inc av s s' a b X :
  solver_exact e -> nonsingular (s_M s) (used_matrix inc s) ->
  solve_fields e inc av s = (s', Ok (a, b, X)) -> solves (s_M s) (used_matrix inc s) X (rhs s).
Proof.
  intros He HA H. apply solve_fields_ok in H as (_ & H & _). eapply solver_direct_correct; eassumption.
Qed.
Lemma csum_shift_src M (w s F : vec) omega :
  csum M (fun k => (w k * (s k * Ci * RtoC omega) * F k)%C) =
  (Ci * RtoC omega * csum M (fun k => (w k * s k * F k)%C))%C.
Proof. rewrite <- csum_scal. apply csum_ext; intros; ring. Qed.
Lemma Cmult_cancel_l a x y : a <> RtoC 0 -> (a * x)%C = (a * y)%C -> x = y.
Proof.
  intros Ha H. transitivity (/ a * (a * x))%C; [field; assumption|]. rewrite H. field; assumption.
Qed.

(* ------------------------------------------------------------------ *)
(** * C07 *)
(** product of the two forward stretch factors of pixel k (row k/Ny, column k mod Ny) *)
Definition C07_weight (s : sim) (k : nat) : C :=
  (create_sfactor (s_xrange s) (s_L0 s) Fwd (s_omega s) (s_Nx s) (fst (s_NPML s)) (k / s_Ny s)%nat *
   create_sfactor (s_yrange s) (s_L0 s) Fwd (s_omega s) (s_Ny s) (snd (s_NPML s)) (k mod s_Ny s)%nat)%C.
Theorem C07_reciprocity :
  forall e s, reachable e s -> solver_exact e -> (0 < s_Nx s)%nat -> (0 < s_Ny s)%nat ->
  nonsingular (s_M s) (s_A s) ->
  forall av src1 src2 s1 s2 a1 b1 F1 a2 b2 F2,
  solve_fields e false av (upd_src src1 s) = (s1, Ok (a1, b1, F1)) ->
  solve_fields e false av (upd_src src2 s) = (s2, Ok (a2, b2, F2)) ->
  csum (s_M s) (fun k => (C07_weight s k * nd_buf src1 k * F2 k)%C) =
  csum (s_M s) (fun k => (C07_weight s k * nd_buf src2 k * F1 k)%C).
Proof.
  intros e s HR He HNx HNy HA av src1 src2 s1 s2 a1 b1 F1 a2 b2 F2 H1 H2.
  assert (HP := reachable_physical e s HR HNx HNy). destruct HP as (HL & Ho & Hx & Hy & _).
  destruct (consistent_A s (reachable_consistent e s HR)) as [EA _].
  assert (S1 := solve_fields_solves e false av (upd_src src1 s) s1 a1 b1 F1 He HA H1).
  assert (S2 := solve_fields_solves e false av (upd_src src2 s) s2 a2 b2 F2 He HA H2).
  cbn [used_matrix upd_src s_A] in S1, S2. change (s_M (upd_src _ s)) with (s_M s) in S1, S2.
  rewrite EA in S1, S2. unfold s_M in S1, S2.
  assert (E := reciprocity (s_omega s) (s_L0 s) (s_Nx s) (s_Ny s) (s_NPML s) (s_xrange s) (s_yrange s)
     Ho HL Hx Hy HNx HNy (s_epsC s) (s_pol s) true _ _ _ _ S1 S2).
  unfold rhs in E. cbn [upd_src s_src s_omega] in E.
  rewrite (csum_shift_src _ (wgt _ _ _ _ _ _ _) (nd_buf src1)) in E.
  rewrite (csum_shift_src _ (wgt _ _ _ _ _ _ _) (nd_buf src2)) in E.
  apply Cmult_cancel_l in E; [exact E|]. apply Cmult_neq_0; [apply Ci_neq0|apply RtoC_neq0; lra].
Qed.
(** Without PML the weight is 1. *)
Theorem C07_reciprocity_no_pml :
  forall e s, reachable e s -> solver_exact e -> (0 < s_Nx s)%nat -> (0 < s_Ny s)%nat ->
  s_NPML s = (0, 0)%nat -> nonsingular (s_M s) (s_A s) ->
  forall av src1 src2 s1 s2 a1 b1 F1 a2 b2 F2,
  solve_fields e false av (upd_src src1 s) = (s1, Ok (a1, b1, F1)) ->
  solve_fields e false av (upd_src src2 s) = (s2, Ok (a2, b2, F2)) ->
  csum (s_M s) (fun k => (nd_buf src1 k * F2 k)%C) = csum (s_M s) (fun k => (nd_buf src2 k * F1 k)%C).
Proof.
  intros e s HR He HNx HNy HN HA av src1 src2 s1 s2 a1 b1 F1 a2 b2 F2 H1 H2.
  assert (E := C07_reciprocity e s HR He HNx HNy HA av src1 src2 s1 s2 a1 b1 F1 a2 b2 F2 H1 H2).
  assert (W: forall u v : vec, csum (s_M s) (fun k => (C07_weight s k * u k * v k)%C) = csum (s_M s) (fun k => (u k * v k)%C)).
  { intros u v. apply csum_ext; intros k Hk. unfold C07_weight. rewrite HN; cbn [fst snd]. rewrite !sfactor_no_pml. ring. }
  rewrite !W in E. exact E.
Qed.
(** The matrix builder itself, for complex permittivities and both averaging choices. *)
Theorem C07_reciprocity_complex_permittivity :
  forall omega xr yr Nx Ny (eps : nat -> C) NPML p L0 av,
  (0 < omega)%R -> (0 < L0)%R -> (fst xr < snd xr)%R -> (fst yr < snd yr)%R -> (0 < Nx)%nat -> (0 < Ny)%nat ->
  let A := fst (construct_A omega xr yr Nx Ny eps NPML p L0 av) in
  let w k := (create_sfactor xr L0 Fwd omega Nx (fst NPML) (k / Ny)%nat *
              create_sfactor yr L0 Fwd omega Ny (snd NPML) (k mod Ny)%nat)%C in
  forall b1 b2 E1 E2, solves (Nx * Ny) A E1 b1 -> solves (Nx * Ny) A E2 b2 ->
  csum (Nx * Ny) (fun k => (w k * b1 k * E2 k)%C) = csum (Nx * Ny) (fun k => (w k * b2 k * E1 k)%C).
Proof.
  intros omega xr yr Nx Ny eps NPML p L0 av Ho HL Hx Hy HNx HNy A w b1 b2 E1 E2 S1 S2.
  exact (reciprocity omega L0 Nx Ny NPML xr yr Ho HL Hx Hy HNx HNy eps p av b1 b2 E1 E2 S1 S2).
Qed.

(* ------------------------------------------------------------------ *)
(** ** concrete simulations for the examples *)
Definition ex_s (p : string) : sim := match ex_sim_res p with Ok s => s | Raise _ =>
  mkSim 1 1 (0,0)%nat PolEz 1 0 0 (mkNd 0 0 (fun _ => RtoC 0)) (0,0)%R (0,0)%R (mkNd 0 0 (fun _ => 0%R)) mId
   (mkDerivs mId mId mId mId) no_fields no_fields [] [] (fun _ => 0%R) vzero (fun _ => 0%R) None Absent Absent end.
Lemma ex_s_eq p : (p = "Ez" \/ p = "Hz")%string -> ex_sim_res p = Ok (ex_s p).
Proof. intro Hp. unfold ex_s. destruct (ex_sim_ok p Hp) as [s ->]. reflexivity. Qed.
Lemma ex_reachable p : (p = "Ez" \/ p = "Hz")%string -> reachable ex_env (ex_s p).
Proof.
  intro Hp. exists ex_omega, ex_eps, 1%R, (Some [0;0]%Z), p, 1%R, (ex_s p), [].
  repeat split; try (simpl; lra || lia). apply ex_s_eq; assumption.
Qed.
Lemma ex_fields p : (p = "Ez" \/ p = "Hz")%string ->
  s_Nx (ex_s p) = 3%nat /\ s_Ny (ex_s p) = 2%nat /\ s_NPML (ex_s p) = (0,0)%nat /\ s_M (ex_s p) = 6%nat.
Proof.
  intro Hp. assert (H := ex_s_eq p Hp). apply Simulation_fields in H.
  destruct H as (_ & _ & E3 & E4 & _ & _ & _ & _ & _ & _ & E9 & _). unfold s_M. rewrite E3, E4.
  repeat split. apply (E9 0%Z 0%Z eq_refl).
Qed.
Lemma ex_nonsingular : nonsingular (s_M (ex_s "Ez")) (s_A (ex_s "Ez")).
Proof.
  assert (Hp: ("Ez" = "Ez" \/ "Ez" = "Hz")%string) by auto.
  destruct (consistent_A _ (reachable_consistent _ _ (ex_reachable "Ez" Hp))) as [EA _].
  assert (H := ex_s_eq "Ez" Hp). apply Simulation_fields in H.
  destruct H as (E1 & E2 & E3 & E4 & E5 & E6 & E7 & E8 & _ & _ & E9 & EP & _ & _).
  specialize (E9 0%Z 0%Z eq_refl). specialize (EP eq_refl).
  rewrite EA. unfold s_M, s_epsC. rewrite E1, E2, E3, E4, E5, E6, E7, E9, EP.
  change (Z.to_nat 0, Z.to_nat 0) with (0,0)%nat.
  apply Ez_nonsingular with (d := 1%R); try (simpl; lra || lia).
  - apply dL_new; simpl; lia.
  - intros k Hk. replace (ex_omega ^ 2 * (EPSILON_0 * 1) * (MU_0 * 1) * (1 * 1))%R with (ex_omega ^ 2 * (EPSILON_0 * MU_0))%R by ring.
    rewrite ex_omega_sq. simpl in Hk.
    assert (1 <= nd_buf ex_eps k)%R.
    { do 6 (destruct k; [simpl; lra|]). simpl; lra. }
    lra.
Qed.
Example C07_met : reachable ex_env (ex_s "Ez") /\ solver_exact ex_env /\
  nonsingular (s_M (ex_s "Ez")) (s_A (ex_s "Ez")) /\
  exists s1 a1 b1 F1, solve_fields ex_env false false
     (upd_src (mkNd 3 2 (fun k => if Nat.eqb k 2 then RtoC 1 else RtoC 0)) (ex_s "Ez")) = (s1, Ok (a1, b1, F1)).
Proof.
  split; [apply ex_reachable; auto|]. split; [apply ex_env_exact|]. split; [apply ex_nonsingular|].
  destruct (solve_fields_lin ex_env false (upd_src (mkNd 3 2 (fun k => if Nat.eqb k 2 then RtoC 1 else RtoC 0)) (ex_s "Ez"))) as [X [_ H]].
  - destruct (ex_fields "Ez") as (E1 & E2 & _); [auto|]. unfold s_M, nd_size; cbn [upd_src s_src s_Nx s_Ny nd_nx nd_ny].
    rewrite E1, E2. reflexivity.
  - cbv zeta in H. do 4 eexists. exact H.
Qed.

(* ------------------------------------------------------------------ *)
(** * C08 *)
Theorem C08_lossless_closed_domain :
  forall e s, reachable e s -> solver_exact e -> (0 < s_Nx s)%nat -> (0 < s_Ny s)%nat ->
  s_NPML s = (0, 0)%nat ->
  forall inc av s' a b F,
  nonsingular (s_M s) (used_matrix inc s) ->
  solve_fields e inc av s = (s', Ok (a, b, F)) ->
  Re (csum (s_M s) (fun k => (Cconj (nd_buf (s_src s) k) * F k)%C)) = 0%R.
Proof.
  intros e s HR He HNx HNy HN inc av s' a b F HA H.
  assert (HP := reachable_physical e s HR HNx HNy). destruct HP as (HL & Ho & Hx & Hy & _).
  destruct (consistent_A s (reachable_consistent e s HR)) as [EA _]. rewrite HN in EA.
  assert (HNL := reachable_nl e s HR).
  assert (S1 := solve_fields_solves e inc av s s' a b F He HA H).
  assert (Hsym: forall r c, (r < s_M s)%nat -> (c < s_M s)%nat -> used_matrix inc s r c = used_matrix inc s c r).
  { intros r c Hr Hc.
    assert (EE: s_A s r c = s_A s c r).
    { rewrite EA. apply A_sym_no_pml; assumption. }
    unfold used_matrix. destruct inc; [|exact EE]. unfold nl_inv in HNL.
    destruct (s_Anl s) as [[m An]|]; [|exact EE]. rewrite HNL. unfold mplus, spdiags, mdiag. rewrite EE.
    rewrite (Nat.eqb_sym r c). destruct (Nat.eqb_spec c r) as [->|]; reflexivity. }
  assert (Hreal: forall r c, (r < s_M s)%nat -> (c < s_M s)%nat -> Cconj (used_matrix inc s r c) = used_matrix inc s r c).
  { intros r c Hr Hc.
    assert (EE: Cconj (s_A s r c) = s_A s r c).
    { rewrite EA. apply A_real_no_pml; try assumption. intro j; apply Cconj_RtoC. }
    unfold used_matrix. destruct inc; [|exact EE]. unfold nl_inv in HNL.
    destruct (s_Anl s) as [[m An]|]; [|exact EE]. rewrite HNL. unfold mplus, spdiags, mdiag.
    rewrite Cconj_plus, EE. destruct (Nat.eqb r c); rewrite Cconj_RtoC; reflexivity. }
  assert (Q := real_sym_no_power _ _ _ _ Hsym Hreal S1). unfold rhs in Q.
  rewrite (csum_ext (s_M s) _ (fun k => (Ci * RtoC (s_omega s) * (Cconj (F k) * nd_buf (s_src s) k))%C)) in Q by (intros; ring).
  rewrite csum_scal in Q. rewrite Im_mult in Q. autorewrite with reim in Q.
  assert (EQ: Re (csum (s_M s) (fun k => (Cconj (F k) * nd_buf (s_src s) k)%C)) = 0%R).
  { apply (Rmult_eq_reg_l (s_omega s)); [|lra]. lra. }
  rewrite <- EQ. rewrite !Re_csum. apply rsum_ext; intros k Hk. autorewrite with reim. ring.
Qed.
Example C08_met : s_NPML (ex_s "Ez") = (0,0)%nat /\ (0 < s_Nx (ex_s "Ez"))%nat /\ (0 < s_Ny (ex_s "Ez"))%nat /\
  nonsingular (s_M (ex_s "Ez")) (used_matrix false (ex_s "Ez")).
Proof.
  destruct (ex_fields "Ez") as (E1 & E2 & E3 & _); [auto|]. rewrite E1, E2, E3. repeat split; try lia. apply ex_nonsingular.
Qed.

(* ------------------------------------------------------------------ *)
(** * C09 *)
Lemma half_double x : ((x + x) / RtoC 2)%C = x.
Proof. unfold Cdiv. rewrite <- RtoC_inv by lra. apply C_ext; autorewrite with reim; simpl; lra. Qed.
(** Ez polarization, with or without the nonlinear permittivity. *)
Theorem C09_fields_satisfy_maxwell_Ez :
  forall e s, reachable e s -> solver_exact e -> (0 < s_Nx s)%nat -> (0 < s_Ny s)%nat -> s_pol s = PolEz ->
  forall inc av s' hx hy ez,
  nonsingular (s_M s) (used_matrix inc s) ->
  solve_fields e inc av s = (s', Ok (hx, hy, ez)) ->
  let D := s_derivs s in
  maxwell_Ez (s_M s) (Dxf D) (Dxb D) (Dyf D) (Dyb D) (s_omega s) (MU_0 * s_L0 s)
    (fun k => RtoC (EPSILON_0 * s_L0 s * (nd_buf (s_eps s) k + (if inc then s_eps_nl s k else 0))))
    (nd_buf (s_src s)) hx hy ez.
Proof.
  intros e s HR He HNx HNy HPol inc av s' hx hy ez HA H D.
  assert (HP := reachable_physical e s HR HNx HNy). destruct HP as (HL & Ho & Hx & Hy & _).
  destruct (consistent_A s (reachable_consistent e s HR)) as [EA ED]. rewrite HPol in EA.
  assert (S1 := solve_fields_solves e inc av s s' _ _ _ He HA H).
  assert (HNL := reachable_nl e s HR). unfold nl_inv in HNL.
  apply solve_fields_ok in H as (_ & _ & HD & Hinc).
  unfold derived_fields in HD. rewrite HPol in HD. injection HD as -> ->.
  assert (S2: solves (s_M s) (fst (construct_A (s_omega s) (s_xrange s) (s_yrange s) (s_Nx s) (s_Ny s) (used_eps inc s)
                 (s_NPML s) PolEz (s_L0 s) true)) ez (rhs s)).
  { eapply solves_ext; [|apply veq_refl|exact S1]. unfold used_matrix, used_eps. destruct inc.
    - destruct (Hinc eq_refl) as (m & An & E1 & _). rewrite E1 in HNL |- *. rewrite HNL, EA. apply Anl_is_eps.
    - rewrite EA. apply meq_refl. }
  assert (Q := maxwell_Ez_of_solve (s_omega s) (s_L0 s) (s_Nx s) (s_Ny s) (s_NPML s) (s_xrange s) (s_yrange s)
    (used_eps inc s) (nd_buf (s_src s)) ez Ho HL S2). cbv zeta in Q. rewrite <- ED in Q. fold D in Q. fold (s_M s) in Q.
  intros k Hk. destruct (Q k Hk) as (Q1 & Q2 & Q3). repeat split; [exact Q1|exact Q2|].
  etransitivity; [exact Q3|]. unfold used_eps, s_epsC, cvec. rewrite (RtoC_mult (EPSILON_0 * s_L0 s)), RtoC_plus. destruct inc; ring.
Qed.
(** Hz polarization with averaging=True. *)
Lemma eps_dir_neq0 w av L0 Nx Ny (eps : rvec) k : (0 < L0)%R -> (0 < Nx)%nat -> (0 < Ny)%nat -> (k < Nx * Ny)%nat ->
  (forall j, (j < Nx * Ny)%nat -> (0 < eps j)%R) -> eps_dir w av L0 Nx Ny (cvec eps) k <> RtoC 0.
Proof.
  intros HL HNx HNy Hk He. assert (H0 := EPSILON_0_pos).
  assert (Hc: (0 < EPSILON_0 * L0)%R) by (apply Rmult_lt_0_compat; lra).
  assert (Hpos: forall j, (j < Nx * Ny)%nat -> (0 < EPSILON_0 * L0 * eps j)%R) by (intros; apply Rmult_lt_0_compat; auto).
  intro E. apply (f_equal Re) in E. unfold eps_dir in E. destruct av.
  - unfold grid_average, roll1, cvec in E.
    assert (Hi: (k / Ny < Nx)%nat) by (apply flat_div_lt; assumption).
    assert (Hj: (k mod Ny < Ny)%nat) by (apply Nat.mod_upper_bound; lia).
    assert (H1 := Hpos k Hk).
    destruct w.
    + assert (H2 := Hpos ((((k / Ny + Nx - 1) mod Nx) * Ny + k mod Ny)%nat) ltac:(apply flat_lt; [apply Nat.mod_upper_bound; lia|assumption])).
      unfold Cdiv in E. rewrite <- RtoC_inv, <- !RtoC_mult, <- RtoC_plus, <- RtoC_mult, Re_RtoC in E by lra. simpl in E. lra.
    + assert (H2 := Hpos ((k / Ny) * Ny + (k mod Ny + Ny - 1) mod Ny)%nat ltac:(apply flat_lt; [assumption|apply Nat.mod_upper_bound; lia])).
      unfold Cdiv in E. rewrite <- RtoC_inv, <- !RtoC_mult, <- RtoC_plus, <- RtoC_mult, Re_RtoC in E by lra. simpl in E. lra.
  - unfold cvec in E. rewrite <- RtoC_mult in E. simpl in E. assert (H1 := Hpos k Hk). lra.
Qed.
Theorem C09_fields_satisfy_maxwell_Hz_averaging_partial :
  forall e s, reachable e s -> solver_exact e -> (0 < s_Nx s)%nat -> (0 < s_Ny s)%nat -> s_pol s = PolHz ->
  (forall k, (k < s_M s)%nat -> (0 < nd_buf (s_eps s) k)%R) ->
  nonsingular (s_M s) (s_A s) ->
  forall s' ex ey hz,
  solve_fields e false true s = (s', Ok (ex, ey, hz)) ->
  let D := s_derivs s in
  let eps0 := fun k => RtoC (EPSILON_0 * s_L0 s * nd_buf (s_eps s) k) in
  maxwell_Hz (s_M s) (Dxf D) (Dxb D) (Dyf D) (Dyb D) (s_omega s) (MU_0 * s_L0 s)
    (grid_average AxY (s_Nx s) (s_Ny s) eps0) (grid_average AxX (s_Nx s) (s_Ny s) eps0)
    (nd_buf (s_src s)) ex ey hz.
Proof.
  intros e s HR He HNx HNy HPol Hpos HA s' ex ey hz H D eps0.
  assert (HP := reachable_physical e s HR HNx HNy). destruct HP as (HL & Ho & Hx & Hy & _).
  destruct (consistent_A s (reachable_consistent e s HR)) as [EA ED]. rewrite HPol in EA.
  assert (S1 := solve_fields_solves e false true s s' _ _ _ He HA H).
  apply solve_fields_ok in H as (_ & _ & HD & _).
  unfold derived_fields in HD. rewrite HPol in HD. injection HD as -> ->.
  cbn [used_matrix used_eps] in *. rewrite EA in S1.
  assert (Q := maxwell_Hz_of_solve (s_omega s) (s_L0 s) (s_Nx s) (s_Ny s) (s_NPML s) (s_xrange s) (s_yrange s)
    (s_epsC s) true (nd_buf (s_src s)) hz Ho HL). cbv zeta in Q. rewrite <- ED in Q. fold D in Q. fold (s_M s) in Q.
  specialize (Q ltac:(intros k Hk; split; apply eps_dir_neq0; assumption) S1).
  assert (EE: forall w k, grid_average w (s_Nx s) (s_Ny s) eps0 k = eps_dir w true (s_L0 s) (s_Nx s) (s_Ny s) (s_epsC s) k).
  { intros w k. unfold eps0, eps_dir, grid_average, roll1, s_epsC, cvec. destruct w; rewrite !RtoC_mult; reflexivity. }
  intros k Hk. rewrite !EE. exact (Q k Hk).
Qed.
(** The default (averaging=False) is also right when the averaged permittivities coincide
    with the pixel values, in particular on a uniform structure. *)
Theorem C09_Hz_default_uniform_partial :
  forall e s, reachable e s -> solver_exact e -> (0 < s_Nx s)%nat -> (0 < s_Ny s)%nat -> s_pol s = PolHz ->
  forall c, (0 < c)%R -> (forall k, (k < s_M s)%nat -> nd_buf (s_eps s) k = c) ->
  nonsingular (s_M s) (s_A s) ->
  forall s' ex ey hz,
  solve_fields e false false s = (s', Ok (ex, ey, hz)) ->
  let D := s_derivs s in
  maxwell_Hz (s_M s) (Dxf D) (Dxb D) (Dyf D) (Dyb D) (s_omega s) (MU_0 * s_L0 s)
    (fun _ => RtoC (EPSILON_0 * s_L0 s * c)) (fun _ => RtoC (EPSILON_0 * s_L0 s * c))
    (nd_buf (s_src s)) ex ey hz.
Proof.
  intros e s HR He HNx HNy HPol c Hc Hu HA s' ex ey hz H D.
  assert (HP := reachable_physical e s HR HNx HNy). destruct HP as (HL & Ho & Hx & Hy & _).
  assert (HE := EPSILON_0_pos).
  destruct (consistent_A s (reachable_consistent e s HR)) as [EA ED]. rewrite HPol in EA.
  assert (S1 := solve_fields_solves e false false s s' _ _ _ He HA H).
  apply solve_fields_ok in H as (_ & _ & HD & _).
  unfold derived_fields in HD. rewrite HPol in HD. injection HD as -> ->.
  cbn [used_matrix used_eps] in *. rewrite EA in S1.
  assert (EE: forall w av k, (k < s_M s)%nat -> eps_dir w av (s_L0 s) (s_Nx s) (s_Ny s) (s_epsC s) k = RtoC (EPSILON_0 * s_L0 s * c)).
  { intros w av k Hk. unfold eps_dir, grid_average, roll1, s_epsC, cvec. rewrite (RtoC_mult (EPSILON_0 * s_L0 s)).
    assert (Hi: (k / s_Ny s < s_Nx s)%nat) by (apply flat_div_lt; assumption).
    assert (Hj: (k mod s_Ny s < s_Ny s)%nat) by (apply Nat.mod_upper_bound; lia).
    destruct av; [|rewrite Hu by assumption; reflexivity]. destruct w.
    - rewrite (Hu k Hk), Hu by (apply flat_lt; [apply Nat.mod_upper_bound; lia|assumption]).
      apply half_double.
    - rewrite (Hu k Hk), Hu by (apply flat_lt; [assumption|apply Nat.mod_upper_bound; lia]).
      apply half_double. }
  assert (Hne: RtoC (EPSILON_0 * s_L0 s * c) <> RtoC 0).
  { apply RtoC_neq0, Rgt_not_eq. apply Rmult_lt_0_compat; [apply Rmult_lt_0_compat; lra|lra]. }
  assert (S2: solves (s_M s) (fst (construct_A (s_omega s) (s_xrange s) (s_yrange s) (s_Nx s) (s_Ny s) (s_epsC s)
                 (s_NPML s) PolHz (s_L0 s) false)) hz (rhs s)).
  { eapply solves_ext; [|apply veq_refl|exact S1]. intros r q Hr Hq. rewrite !A_decomp by assumption.
    f_equal. f_equal; unfold mm at 1 3; apply csum_ext; intros k Hk; rewrite !mm_diag_r by assumption;
      cbn [Ax_g Ay_g]; rewrite !EE by assumption; reflexivity. }
  assert (Q := maxwell_Hz_of_solve (s_omega s) (s_L0 s) (s_Nx s) (s_Ny s) (s_NPML s) (s_xrange s) (s_yrange s)
    (s_epsC s) false (nd_buf (s_src s)) hz Ho HL). cbv zeta in Q. rewrite <- ED in Q. fold D in Q. fold (s_M s) in Q.
  specialize (Q ltac:(intros k Hk; rewrite !EE by assumption; split; assumption) S2).
  intros k Hk. specialize (Q k Hk). rewrite !EE in Q by assumption. exact Q.
Qed.

(** The default averaging=False is wrong on structured Hz problems. *)
Lemma maxwell_Hz_curl_to_matrix omega L0 Nx Ny NPML xr yr eps av J X :
  (0 < omega)%R ->
  let M := (Nx * Ny)%nat in
  let D := make_derivs omega L0 Nx Ny NPML xr yr in
  let ex := eps_dir AxX av L0 Nx Ny eps in
  let ey := eps_dir AxY av L0 Nx Ny eps in
  let Fx := vscal (RtoC 1 / Ci / RtoC omega)%C (mv M (mm M (spdiags (fun k => (/ ey k)%C)) (Dyb D)) X) in
  let Fy := vscal (- RtoC 1 / Ci / RtoC omega)%C (mv M (mm M (spdiags (fun k => (/ ex k)%C)) (Dxb D)) X) in
  forall k, (k < M)%nat ->
  (mv M (Dyf D) Fx k - mv M (Dxf D) Fy k = Ci * RtoC omega * RtoC (MU_0 * L0) * X k + J k)%C ->
  mv M (fst (construct_A omega xr yr Nx Ny eps NPML PolHz L0 av)) X k = (J k * Ci * RtoC omega)%C.
Proof.
  intros Ho M D ex ey Fx Fy k Hk E.
  assert (HoC: RtoC omega <> RtoC 0) by (apply RtoC_neq0; lra). assert (HCi := Ci_neq0).
  unfold M at 1. rewrite mv_construct_Hz by assumption. cbv zeta. fold D M ex ey.
  unfold Fx, Fy in E. rewrite !mv_vscal in E.
  rewrite (mv_ext_v M (Dyf D) _ (fun j => (/ ey j * mv M (Dyb D) X j)%C)) in E.
  2:{ intros j Hj. rewrite mv_mm. unfold spdiags. rewrite mv_diag by assumption. reflexivity. }
  rewrite (mv_ext_v M (Dxf D) _ (fun j => (/ ex j * mv M (Dxb D) X j)%C)) in E.
  2:{ intros j Hj. rewrite mv_mm. unfold spdiags. rewrite mv_diag by assumption. reflexivity. }
  set (a := mv M (Dxf D) _ k) in *. set (b := mv M (Dyf D) _ k) in *.
  assert (E2: (a + b = Ci * RtoC omega * (Ci * RtoC omega * RtoC (MU_0 * L0) * X k + J k))%C).
  { rewrite <- E. field. auto. }
  rewrite E2. replace (omega ^ 2 * (MU_0 * L0))%R with (omega * (omega * (MU_0 * L0)))%R by ring. rewrite !(RtoC_mult omega).
  transitivity ((Ci * Ci) * RtoC omega * RtoC omega * RtoC (MU_0 * L0) * X k + Ci * RtoC omega * J k
     + RtoC omega * RtoC omega * RtoC (MU_0 * L0) * X k)%C; [ring|].
  rewrite Ci_sqr. ring.
Qed.
Definition ex9_eps : nd R := mkNd 2 2 (fun k => match k with 2 => 3 | _ => 1 end)%R.
Definition ex9_X : vec := fun k => if Nat.eqb k 0 then RtoC 1 else RtoC 0.
Lemma ex9_sim : exists s0, Simulation ex_omega ex9_eps 1 (Some [0;0]%Z) "Hz" 1 = Ok s0.
Proof. unfold Simulation. rewrite ex_check by auto. eexists; reflexivity. Qed.
Lemma ex9_dir w av k : (k < 4)%nat -> exists r, (1 <= r)%R /\ eps_dir w av 1 2 2 (cvec (nd_buf ex9_eps)) k = RtoC (EPSILON_0 * r).
Proof.
  intro Hk. unfold eps_dir, grid_average, roll1, cvec, ex9_eps. cbn [nd_buf].
  assert (HD: forall a b, ((RtoC (EPSILON_0 * 1) * RtoC a + RtoC (EPSILON_0 * 1) * RtoC b) / RtoC 2)%C = RtoC (EPSILON_0 * ((a + b) / 2))).
  { intros a b. unfold Cdiv. rewrite <- RtoC_inv by lra. rewrite <- !RtoC_mult, <- RtoC_plus, <- RtoC_mult. f_equal. field. }
  destruct av.
  - destruct w; rewrite HD; eexists; (split; [|reflexivity]); do 4 (destruct k as [|k]; [simpl; lra|]); lia.
  - exists (match k with 2 => 3 | _ => 1 end)%R. split.
    + do 4 (destruct k as [|k]; [simpl; lra|]); lia.
    + rewrite <- RtoC_mult. f_equal. ring.
Qed.
Lemma ex9_inv a b : (0 < a)%R -> (/ RtoC (EPSILON_0 * a) * RtoC b)%C = RtoC (b / a / EPSILON_0).
Proof.
  intro Ha. assert (H := EPSILON_0_pos). rewrite <- RtoC_inv by (apply Rgt_not_eq, Rmult_lt_0_compat; lra).
  rewrite <- RtoC_mult. f_equal. field. lra.
Qed.
Lemma ex9_A av : mv 4 (fst (construct_A ex_omega (0, INR 2 * 1)%R (0, INR 2 * 1)%R 2 2 (cvec (nd_buf ex9_eps)) (0,0)%nat PolHz 1 av)) ex9_X 0%nat
  = RtoC (- (if av then 3 else 10/3) / EPSILON_0 + ex_omega ^ 2 * (MU_0 * 1))%R.
Proof.
  assert (HE := EPSILON_0_pos).
  assert (E := mv_construct_Hz_stencil ex_omega 1 2 2 (0, INR 2 * 1)%R (0, INR 2 * 1)%R (cvec (nd_buf ex9_eps)) av 1 ex9_X 0 0
     ltac:(lia) ltac:(lia) ltac:(lia) ltac:(lia) ltac:(apply dL_new; lia) ltac:(lra)).
  cbv beta zeta in E. change (pix 2 0 0) with 0%nat in E. change (2 * 2)%nat with 4%nat in E. rewrite E.
  change (next 2 0) with 1%nat. change (prev 2 0) with 1%nat. change (pix 2 1 0) with 2%nat. change (pix 2 0 1) with 1%nat.
  change (ex9_X 0%nat) with (RtoC 1). change (ex9_X 1%nat) with (RtoC 0). change (ex9_X 2%nat) with (RtoC 0).
  replace (RtoC (1 * 1)) with (RtoC 1) by (f_equal; ring).
  assert (HD: forall a b, ((RtoC (EPSILON_0 * 1) * RtoC a + RtoC (EPSILON_0 * 1) * RtoC b) / RtoC 2)%C = RtoC (EPSILON_0 * ((a + b) / 2))).
  { intros a b. unfold Cdiv. rewrite <- RtoC_inv by lra. rewrite <- !RtoC_mult, <- RtoC_plus, <- RtoC_mult. f_equal. field. }
  assert (HS: forall a b c d t, ((/ RtoC a * (RtoC 0 - RtoC 1) - / RtoC b * (RtoC 1 - RtoC 0) + (/ RtoC c * (RtoC 0 - RtoC 1) - / RtoC d * (RtoC 1 - RtoC 0))) / RtoC 1 + RtoC t * RtoC 1)%C
     = (- (/ RtoC a + / RtoC b + / RtoC c + / RtoC d) + RtoC t)%C).
  { intros. unfold Cdiv. rewrite <- (RtoC_inv 1) by lra. replace (RtoC (/1)) with (RtoC 1) by (f_equal; field). ring. }
  unfold eps_dir, grid_average, roll1, cvec, ex9_eps. cbn [nd_buf]. destruct av.
  - cbn [Nat.div Nat.divmod Nat.modulo fst snd Nat.add Nat.sub Nat.mul].
    cbv beta iota. rewrite !HD, HS. rewrite <- !RtoC_inv by (apply Rgt_not_eq; lra).
    rewrite <- !RtoC_plus, <- RtoC_opp, <- RtoC_plus. f_equal. field. lra.
  - cbv beta iota.
    assert (HM: forall a, (RtoC (EPSILON_0 * 1) * RtoC a)%C = RtoC (EPSILON_0 * a)).
    { intro a. rewrite <- RtoC_mult. f_equal. ring. }
    rewrite !HM, HS. rewrite <- !RtoC_inv by (apply Rgt_not_eq; lra).
    rewrite <- !RtoC_plus, <- RtoC_opp, <- RtoC_plus. f_equal. field. lra.
Qed.
(** Full property for Hz with the default averaging, for either reading of "the
    simulation's permittivity" (pixel values or grid averages). *)
Definition C09_property_Hz_default (averaged : bool) : Prop :=
  forall e s, reachable e s -> solver_exact e -> (0 < s_Nx s)%nat -> (0 < s_Ny s)%nat -> s_pol s = PolHz ->
  (forall k, (k < s_M s)%nat -> (0 < nd_buf (s_eps s) k)%R) ->
  nonsingular (s_M s) (s_A s) ->
  forall s' ex ey hz,
  solve_fields e false false s = (s', Ok (ex, ey, hz)) ->
  let D := s_derivs s in
  maxwell_Hz (s_M s) (Dxf D) (Dxb D) (Dyf D) (Dyb D) (s_omega s) (MU_0 * s_L0 s)
    (eps_dir AxY averaged (s_L0 s) (s_Nx s) (s_Ny s) (s_epsC s)) (eps_dir AxX averaged (s_L0 s) (s_Nx s) (s_Ny s) (s_epsC s))
    (nd_buf (s_src s)) ex ey hz.
Theorem C09_Hz_default_averaging_refuted : forall averaged, ~ C09_property_Hz_default averaged.
Proof.
  intros averaged H. destruct ex9_sim as [s0 HS0].
  assert (HF := Simulation_fields _ _ _ _ _ _ _ HS0).
  assert (HC := Simulation_consistent _ _ _ _ _ _ _ HS0).
  destruct (consistent_A s0 HC) as [EA ED].
  destruct HF as (E1 & E2 & E3 & E4 & E5 & E6 & E7 & E8 & _ & _ & E9 & _ & EP & _).
  specialize (E9 0%Z 0%Z eq_refl). specialize (EP eq_refl). change (Z.to_nat 0, Z.to_nat 0) with (0,0)%nat in E9.
  change (nd_nx ex9_eps) with 2%nat in *. change (nd_ny ex9_eps) with 2%nat in *.
  unfold s_epsC in *. rewrite E1, E2, E3, E4, E5, E6, E7, E9, EP in EA. rewrite E1, E2, E3, E4, E6, E7, E9 in ED.
  assert (HE := EPSILON_0_pos). assert (Ho := ex_omega_pos). assert (HMU := MU_0_pos). assert (HQ := ex_omega_sq).
  set (A := fst (construct_A ex_omega (0, INR 2 * 1)%R (0, INR 2 * 1)%R 2 2 (cvec (nd_buf ex9_eps)) (0, 0)%nat PolHz 1 true)) in *.
  assert (HNS: nonsingular 4 A).
  { unfold A. apply (Hz_nonsingular ex_omega 1 2 2 _ _ (nd_buf ex9_eps) true 1 (1/EPSILON_0)); try lia; try lra.
    - apply dL_new; lia.
    - apply Rlt_le, Rdiv_lt_0_compat; lra.
    - intros k Hk. assert (HB: forall w, (Cmod (/ eps_dir w true 1 2 2 (cvec (nd_buf ex9_eps)) k)%C <= 1 / EPSILON_0)%R).
      { intro w. destruct (ex9_dir w true k Hk) as [r [Hr ->]].
        assert (0 < EPSILON_0 * r)%R by (apply Rmult_lt_0_compat; lra).
        rewrite <- RtoC_inv by lra. rewrite Cmod_R, Rabs_pos_eq by (apply Rlt_le, Rinv_0_lt_compat; lra).
        unfold Rdiv. rewrite Rmult_1_l. apply Rinv_le_contravar; nra. }
      split; apply HB.
    - apply (Rmult_lt_reg_r EPSILON_0); [assumption|].
      replace (8 * (1 / EPSILON_0) * EPSILON_0)%R with 8%R by (field; lra).
      replace (ex_omega ^ 2 * (MU_0 * 1) * (1 * 1) * EPSILON_0)%R with (ex_omega ^ 2 * (EPSILON_0 * MU_0))%R by ring. lra. }
  set (src := mkNd 2 2 (fun k => (mv 4 A ex9_X k / (Ci * RtoC ex_omega))%C)).
  set (s := run_ops ex_env [SetSrc src] s0).
  assert (Es: s = upd_src src s0) by reflexivity.
  assert (EM: s_M s = 4%nat) by (rewrite Es; unfold s_M; cbn [upd_src s_Nx s_Ny]; rewrite E3, E4; reflexivity).
  assert (EAs: s_A s = A) by (rewrite Es; cbn [upd_src s_A]; exact EA).
  destruct (solve_fields_lin ex_env false s) as [X [HX HR]].
  { rewrite EM. reflexivity. }
  cbv zeta in HR.
  assert (HXX: veq 4 X ex9_X).
  { assert (S1: solves 4 A X (rhs s)).
    { rewrite EM, EAs in HX. eapply solver_direct_correct; [apply ex_env_exact|exact HNS|exact HX]. }
    apply (solves_unique 4 A X ex9_X (rhs s) HNS S1). intros k Hk.
    change (csum 4 _) with (mv 4 A ex9_X k).
    rewrite Es. unfold rhs. cbn [upd_src s_src s_omega nd_buf src]. rewrite E1. field.
    split; [apply RtoC_neq0; lra|apply Ci_neq0]. }
  assert (HH := H ex_env s).
  assert (HRe: reachable ex_env s).
  { exists ex_omega, ex9_eps, 1%R, (Some [0;0]%Z), "Hz"%string, 1%R, s0, [SetSrc src].
    repeat split; try (simpl; lra || lia). exact HS0. }
  specialize (HH HRe ex_env_exact ltac:(rewrite Es; cbn [upd_src s_Nx]; rewrite E3; lia)
     ltac:(rewrite Es; cbn [upd_src s_Ny]; rewrite E4; lia) ltac:(rewrite Es; exact EP)).
  rewrite EM, EAs in HH.
  assert (Hpos: forall k, (k < 4)%nat -> (0 < nd_buf (s_eps s) k)%R).
  { intros k Hk. rewrite Es. cbn [upd_src s_eps]. rewrite E5. do 4 (destruct k as [|k]; [simpl; lra|]). lia. }
  specialize (HH Hpos HNS _ _ _ _ HR).
  specialize (HH 0%nat ltac:(lia)). 
  assert (EDs: s_derivs s = make_derivs ex_omega 1 2 2 (0,0)%nat (0, INR 2 * 1)%R (0, INR 2 * 1)%R) by (rewrite Es; exact ED).
  assert (Eps: s_epsC s = cvec (nd_buf ex9_eps)) by (rewrite Es; unfold s_epsC; cbn [upd_src s_eps]; rewrite E5; reflexivity).
  assert (Eo: s_omega s = ex_omega) by (rewrite Es; exact E1).
  assert (EL: s_L0 s = 1%R) by (rewrite Es; exact E2).
  assert (EPs: s_pol s = PolHz) by (rewrite Es; exact EP).
  assert (ENx: s_Nx s = 2%nat) by (rewrite Es; exact E3).
  assert (ENy: s_Ny s = 2%nat) by (rewrite Es; exact E4).
  unfold derived_fields in HH. rewrite EPs in HH. cbn [fst snd] in HH.
  rewrite EM, EDs, Eps, Eo, EL, ENx, ENy in HH. destruct HH as (HH1 & HH2 & HH3).
  destruct averaged.
  - (* averaged permittivity: the second curl equation fails *)
    clear HH1 HH3. unfold vscal in HH2. rewrite mv_mm in HH2. unfold spdiags in HH2. rewrite mv_diag in HH2 by lia.
    set (d := mv 4 (Dxb (make_derivs ex_omega 1 2 2 (0,0)%nat (0, INR 2 * 1)%R (0, INR 2 * 1)%R)) X 0%nat) in *.
    assert (Hd: d = RtoC 1).
    { unfold d. rewrite (mv_ext_v 4 _ X ex9_X _ HXX). unfold make_derivs, Dxb.
      change 4%nat with (2 * 2)%nat. rewrite make_deriv_no_pml by lia. rewrite dL_new by lia. cbn [fst snd].
      assert (ES := Dxb_stencil 1 1 2 2 ltac:(lra) ex9_X 0 0 ltac:(lia) ltac:(lia) ltac:(lia)). change (pix 2 0 0) with 0%nat in ES. rewrite ES.
      change (diff_xb 1 2 2 ex9_X 0 0) with ((RtoC 1 - RtoC 0) / RtoC 1)%C.
      unfold Cdiv. rewrite <- RtoC_inv by lra. rewrite Rinv_1. ring. }
    rewrite Hd in HH2.
    assert (HX1: eps_dir AxX true 1 2 2 (cvec (nd_buf ex9_eps)) 0%nat = RtoC (EPSILON_0 * 2)).
    { unfold eps_dir, grid_average, roll1, cvec, ex9_eps. cbn [nd_buf Nat.div Nat.divmod Nat.modulo fst snd Nat.add Nat.sub Nat.mul].
      unfold Cdiv. rewrite <- RtoC_inv by lra. rewrite <- !RtoC_mult, <- RtoC_plus, <- RtoC_mult. f_equal. field. }
    assert (HX2: eps_dir AxX false 1 2 2 (cvec (nd_buf ex9_eps)) 0%nat = RtoC EPSILON_0).
    { unfold eps_dir, cvec, ex9_eps. cbn [nd_buf]. rewrite <- RtoC_mult. f_equal. ring. }
    rewrite HX1, HX2 in HH2. rewrite RtoC_mult in HH2.
    assert (RtoC EPSILON_0 <> RtoC 0) by (apply RtoC_neq0; lra).
    assert (RtoC ex_omega <> RtoC 0) by (apply RtoC_neq0; lra).
    assert (HCi := Ci_neq0).
    replace (- (Ci * RtoC ex_omega * (RtoC EPSILON_0 * RtoC 2)) * (- RtoC 1 / Ci / RtoC ex_omega * (/ RtoC EPSILON_0 * RtoC 1)))%C
      with (RtoC 2) in HH2 by (field; auto).
    apply RtoC_inj in HH2. lra.
  - (* pixel permittivity: the third curl equation fails *)
    clear HH1 HH2.
    assert (Q := maxwell_Hz_curl_to_matrix ex_omega 1 2 2 (0,0)%nat (0, INR 2 * 1)%R (0, INR 2 * 1)%R (cvec (nd_buf ex9_eps)) false
       (nd_buf (s_src s)) X Ho 0%nat ltac:(simpl; lia)). cbv zeta in Q. change (2 * 2)%nat with 4%nat in Q.
    specialize (Q HH3). rewrite (mv_ext_v 4 _ X ex9_X _ HXX), ex9_A in Q.
    assert (Q2: (nd_buf (s_src s) 0%nat * Ci * RtoC ex_omega)%C = mv 4 A ex9_X 0%nat).
    { rewrite Es. cbn [upd_src s_src nd_buf src]. field. split; [apply RtoC_neq0; lra|apply Ci_neq0]. }
    rewrite Q2 in Q. unfold A in Q. rewrite ex9_A in Q. apply RtoC_inj in Q.
    assert (0 < / EPSILON_0)%R by (apply Rinv_0_lt_compat; assumption). unfold Rdiv in Q. lra.
Qed.
