(** C83: time reversal of a device without PML; C84: frequency against permittivity. *)
From Coq Require Import Reals Lra Lia List ZArith Arith Bool String.
From Coquelicot Require Import Coquelicot.
From Verif Require Import Base Linear MCore MSim Spec PCore PSim PEx PropsCore PropsSolve PropsNl PropsIter PSym PropsSym PropsUnit.
Import ListNotations.

(* ------------------------------------------------------------------ *)
(** ** conjugation *)
Lemma Cconj_RtoC (x : R) : Cconj (RtoC x) = RtoC x.
Proof. apply C_ext; unfold Re, Im; simpl; ring. Qed.
Lemma Cconj_inv_gen (z : C) : Cconj (/ z)%C = (/ Cconj z)%C.
Proof. apply C_ext; unfold Re, Im; simpl; rewrite ?Rmult_opp_opp; unfold Rdiv; try reflexivity.
  all: replace (- snd z * (- snd z * 1))%R with (snd z * (snd z * 1))%R by ring; ring. Qed.
Lemma Cconj_mult_gen (z w : C) : Cconj (z * w)%C = (Cconj z * Cconj w)%C.
Proof. apply C_ext; unfold Re, Im; simpl; ring. Qed.
Lemma Cconj_plus_gen (z w : C) : Cconj (z + w)%C = (Cconj z + Cconj w)%C.
Proof. apply C_ext; unfold Re, Im; simpl; ring. Qed.
Lemma ax_conj s d N u i : Cconj (ax s d N u i) = ax s d N (fun c => Cconj (u c)) i.
Proof.
  unfold ax. destruct (Nat.ltb 1 N); [|reflexivity]. unfold Cdiv.
  destruct s; rewrite Cconj_mult_gen, Cconj_inv_gen, Cconj_RtoC; f_equal; apply C_ext; unfold Re, Im; simpl; ring.
Qed.
Lemma eps_dir_conj w av L0 Nx Ny (eps : rvec) r : (r < Nx * Ny)%nat ->
  Cconj (eps_dir w av L0 Nx Ny (cvec eps) r) = eps_dir w av L0 Nx Ny (cvec eps) r.
Proof.
  intro Hr. destruct (pix_bound _ _ _ Hr) as (i & j & Hi & Hj & ->). unfold cvec.
  destruct w; [rewrite !eps_dir_x by assumption|rewrite !eps_dir_y by assumption];
    (destruct av; [rewrite <- ?RtoC_mult, <- ?RtoC_plus, <- ?RtoC_div by lra|rewrite <- ?RtoC_mult]); apply Cconj_RtoC.
Qed.
Section Conj.
Variables (omega L0 : R) (Nx Ny : nat) (xr yr : R * R) (eps : rvec) (p : pol) (av : bool).
Hypothesis (Hdx : fst (dL Nx Ny xr yr) <> 0%R) (Hdy : snd (dL Nx Ny xr yr) <> 0%R).
Let A := fst (construct_A omega xr yr Nx Ny (cvec eps) (0, 0)%nat p L0 av).
Lemma A_conj x r : (r < Nx * Ny)%nat -> Cconj (mv (Nx * Ny) A x r) = mv (Nx * Ny) A (fun c => Cconj (x c)) r.
Proof.
  intro Hr. destruct (pix_bound _ _ _ Hr) as (i & j & Hi & Hj & ->). unfold A.
  rewrite !A_grid by assumption. cbn [fst snd]. rewrite !pax_no_pml, !Cconj_plus_gen, !ax_conj, Cconj_mult_gen.
  assert (GX: forall c, (c < Nx)%nat -> Cconj (Ax_g L0 Nx Ny p av (cvec eps) (pix Ny c j)) = Ax_g L0 Nx Ny p av (cvec eps) (pix Ny c j)).
  { intros c Hc. unfold Ax_g. destruct p; [apply Cconj_RtoC|]. rewrite Cconj_inv_gen, eps_dir_conj by (apply flat_lt; assumption). reflexivity. }
  assert (GY: forall c, (c < Ny)%nat -> Cconj (Ay_g L0 Nx Ny p av (cvec eps) (pix Ny i c)) = Ay_g L0 Nx Ny p av (cvec eps) (pix Ny i c)).
  { intros c Hc. unfold Ay_g. destruct p; [apply Cconj_RtoC|]. rewrite Cconj_inv_gen, eps_dir_conj by (apply flat_lt; assumption). reflexivity. }
  f_equal; [f_equal|].
  - apply ax_ext; [assumption|]. intros c Hc. rewrite Cconj_mult_gen, GX, !pax_no_pml, ax_conj by assumption. reflexivity.
  - apply ax_ext; [assumption|]. intros c Hc. rewrite Cconj_mult_gen, GY, !pax_no_pml, ax_conj by assumption. reflexivity.
  - f_equal. unfold Ad_g, cvec. destruct p; rewrite <- ?RtoC_mult; apply Cconj_RtoC.
Qed.
Lemma D_conj w sd x r : (r < Nx * Ny)%nat -> Cconj (mv (Nx * Ny) (make_deriv w sd omega L0 Nx Ny (0, 0)%nat xr yr) x r) =
  mv (Nx * Ny) (make_deriv w sd omega L0 Nx Ny (0, 0)%nat xr yr) (fun c => Cconj (x c)) r.
Proof.
  intro Hr. destruct (pix_bound _ _ _ Hr) as (i & j & Hi & Hj & ->).
  destruct w; [rewrite !DDx_grid by assumption|rewrite !DDy_grid by assumption]; cbn [fst snd]; rewrite !pax_no_pml, ax_conj; reflexivity.
Qed.
End Conj.

(** the derived components of a field that is minus the conjugate *)
Lemma derived_conj s av X1 X2 : (0 < s_omega s)%R -> (0 < s_L0 s)%R ->
  fst (dL (s_Nx s) (s_Ny s) (s_xrange s) (s_yrange s)) <> 0%R -> snd (dL (s_Nx s) (s_Ny s) (s_xrange s) (s_yrange s)) <> 0%R ->
  s_NPML s = (0, 0)%nat ->
  s_derivs s = make_derivs (s_omega s) (s_L0 s) (s_Nx s) (s_Ny s) (s_NPML s) (s_xrange s) (s_yrange s) ->
  (forall r, (r < s_M s)%nat -> X2 r = (- Cconj (X1 r))%C) ->
  forall r, (r < s_M s)%nat ->
  fst (derived_fields s (s_epsC s) av X2) r = Cconj (fst (derived_fields s (s_epsC s) av X1) r) /\
  snd (derived_fields s (s_epsC s) av X2) r = Cconj (snd (derived_fields s (s_epsC s) av X1) r).
Proof.
  intros Ho HL Hdx Hdy HN HD HX r Hr. unfold derived_fields. rewrite HD, HN. unfold make_derivs, Dxb, Dyb.
  assert (HM := MU_0_pos). assert (HX': forall r, (r < s_M s)%nat -> X2 r = vscal (- RtoC 1)%C (fun c => Cconj (X1 c)) r).
  { intros q Hq. unfold vscal. rewrite (HX q Hq). ring. }
  assert (E: forall w, mv (s_M s) (make_deriv w Bwd (s_omega s) (s_L0 s) (s_Nx s) (s_Ny s) (0, 0)%nat (s_xrange s) (s_yrange s)) X2 r =
    (- Cconj (mv (s_M s) (make_deriv w Bwd (s_omega s) (s_L0 s) (s_Nx s) (s_Ny s) (0, 0)%nat (s_xrange s) (s_yrange s)) X1 r))%C).
  { intro w. rewrite (mv_ext_v _ _ _ _ r HX'), mv_vscal. unfold s_M. rewrite D_conj by assumption. ring. }
  assert (HCi: Cconj Ci = (- Ci)%C) by (apply C_ext; unfold Re, Im; simpl; ring).
  assert (HI: (/ - Ci = - / Ci)%C) by (apply C_ext; unfold Re, Im; simpl; field).
  destruct (s_pol s); cbn [fst snd]; unfold vscal.
  - rewrite !E. rewrite !Cconj_mult_gen. unfold Cdiv. rewrite !Cconj_mult_gen, !Cconj_inv_gen, !Cconj_RtoC, HCi, HI.
    split; [|ring].
    replace (Cconj (- RtoC 1)%C) with (- RtoC 1)%C by (apply C_ext; unfold Re, Im; simpl; ring). ring.
  - unfold spdiags. rewrite !mv_mm, !mv_diag by assumption. rewrite !E. rewrite !Cconj_mult_gen. unfold Cdiv.
    rewrite !Cconj_mult_gen, !Cconj_inv_gen, !Cconj_RtoC, HCi, HI. unfold s_epsC. rewrite !eps_dir_conj by assumption.
    split; [ring|]. replace (Cconj (- RtoC 1)%C) with (- RtoC 1)%C by (apply C_ext; unfold Re, Im; simpl; ring). ring.
Qed.

(* ------------------------------------------------------------------ *)
(** * C83: conjugating the source of a device without PML *)
(** The field along z becomes minus its conjugate, the two other components become their
    conjugates: the time-reversed field. *)
Theorem C83_time_reversal : forall e s, reachable e s -> solver_exact e ->
  (0 < s_Nx s)%nat -> (0 < s_Ny s)%nat -> s_NPML s = (0, 0)%nat -> nonsingular (s_M s) (s_A s) ->
  forall src1 src2 av s1' s2' a1 b1 F1 a2 b2 F2,
  (forall r, (r < s_M s)%nat -> nd_buf src2 r = Cconj (nd_buf src1 r)) ->
  solve_fields e false av (upd_src src1 s) = (s1', Ok (a1, b1, F1)) ->
  solve_fields e false av (upd_src src2 s) = (s2', Ok (a2, b2, F2)) ->
  forall r, (r < s_M s)%nat -> F2 r = (- Cconj (F1 r))%C /\ a2 r = Cconj (a1 r) /\ b2 r = Cconj (b1 r).
Proof.
  intros e s HR He HNx HNy HN HA src1 src2 av s1' s2' a1 b1 F1 a2 b2 F2 Hsrc H1 H2.
  assert (HP := reachable_physical e s HR HNx HNy). destruct (sd_neq0 s HP) as [Hdx Hdy].
  destruct (consistent_A s (reachable_consistent e s HR)) as [EA ED].
  assert (S1 := solve_fields_solves e false av (upd_src src1 s) _ _ _ _ He HA H1).
  assert (S2 := solve_fields_solves e false av (upd_src src2 s) _ _ _ _ He HA H2).
  cbn [used_matrix] in S1, S2. change (s_A (upd_src _ s)) with (s_A s) in S1, S2. change (s_M (upd_src _ s)) with (s_M s) in S1, S2.
  assert (EF: forall r, (r < s_M s)%nat -> F2 r = (- Cconj (F1 r))%C).
  { apply (solves_unique (s_M s) (s_A s) F2 (fun k => (- Cconj (F1 k))%C) (rhs (upd_src src2 s)) HA S2).
    intros r Hr. change (mv (s_M s) (s_A s) (fun k => (- Cconj (F1 k))%C) r = rhs (upd_src src2 s) r).
    rewrite (mv_ext_v (s_M s) (s_A s) (fun k => (- Cconj (F1 k))%C) (vscal (- RtoC 1)%C (fun c => Cconj (F1 c))) r) by (intros q Hq; unfold vscal; ring).
    rewrite mv_vscal. assert (Q := S1 r Hr). change (mv (s_M s) (s_A s) F1 r = rhs (upd_src src1 s) r) in Q.
    rewrite EA, HN in Q |- *. unfold s_M in *. unfold s_epsC in *. rewrite <- A_conj by assumption. rewrite Q. unfold rhs. cbn [upd_src s_src s_omega].
    rewrite (Hsrc r Hr), !Cconj_mult_gen, Cconj_RtoC.
    replace (Cconj Ci) with (- Ci)%C by (apply C_ext; unfold Re, Im; simpl; ring). ring. }
  intros r Hr. split; [apply EF; exact Hr|].
  apply solve_fields_ok in H1. apply solve_fields_ok in H2. destruct H1 as (_ & _ & D1 & _). destruct H2 as (_ & _ & D2 & _). cbn [used_eps] in D1, D2.
  change (derived_fields (upd_src src1 s)) with (derived_fields s) in D1. change (s_epsC (upd_src src1 s)) with (s_epsC s) in D1.
  change (derived_fields (upd_src src2 s)) with (derived_fields s) in D2. change (s_epsC (upd_src src2 s)) with (s_epsC s) in D2.
  assert (Q := derived_conj s av F1 F2 (proj1 (proj2 HP)) (proj1 HP) Hdx Hdy HN ED EF r Hr).
  rewrite <- D1, <- D2 in Q. exact Q.
Qed.
(** The same holds of the solutions of the nonlinear equation. *)
Theorem C83_time_reversal_nonlinear : forall e s, reachable e s ->
  (0 < s_Nx s)%nat -> (0 < s_Ny s)%nat -> s_NPML s = (0, 0)%nat ->
  forall src1 src2 F, (forall r, (r < s_M s)%nat -> nd_buf src2 r = Cconj (nd_buf src1 r)) ->
  nonlinear_solution (upd_src src1 s) F -> nonlinear_solution (upd_src src2 s) (fun r => (- Cconj (F r))%C).
Proof.
  intros e s HR HNx HNy HN src1 src2 F Hsrc H k Hk.
  assert (HP := reachable_physical e s HR HNx HNy). destruct (sd_neq0 s HP) as [Hdx Hdy].
  destruct (consistent_A s (reachable_consistent e s HR)) as [EA ED].
  specialize (H k Hk). change (s_M (upd_src src2 s)) with (s_M s) in *. change (s_M (upd_src src1 s)) with (s_M s) in *.
  cbn [upd_src s_A s_omega s_L0 s_src] in *.
  change (csum (s_M s) (fun c => (s_A s k c * F c)%C)) with (mv (s_M s) (s_A s) F k) in H.
  change (csum (s_M s) (fun c => (s_A s k c * - Cconj (F c))%C)) with (mv (s_M s) (s_A s) (fun c => (- Cconj (F c))%C) k).
  rewrite (mv_ext_v (s_M s) (s_A s) (fun k => (- Cconj (F k))%C) (vscal (- RtoC 1)%C (fun c => Cconj (F c))) k) by (intros q Hq; unfold vscal; ring).
  rewrite mv_vscal, (Hsrc k Hk). rewrite EA, HN in H |- *. unfold s_M in *. unfold s_epsC in *. rewrite <- A_conj by assumption.
  cbn [compute_nl upd_nlvals s_eps_nl upd_src s_nl s_eps] in *. rewrite sum_eps_nl_coef in *.
  cbv beta. assert (EN: Cnorm2 (- Cconj (F k))%C = Cnorm2 (F k)) by (unfold Cnorm2, Re, Im; simpl; ring). rewrite EN. clear EN.
  set (g := RtoC _) in *. assert (Hg: Cconj g = g) by apply Cconj_RtoC. clearbody g.
  apply (f_equal Cconj) in H. rewrite Cconj_plus_gen, !Cconj_mult_gen, Hg, Cconj_RtoC in H.
  replace (Cconj Ci) with (- Ci)%C in H by (apply C_ext; unfold Re, Im; simpl; ring).
  set (m := Cconj (mv _ _ _ _)) in *. clearbody m.
  transitivity (- (m + g * Cconj (F k)))%C; [ring|]. rewrite H. ring.
Qed.
(** both polarizations; a source that is not real, so the two runs differ *)
Example C83_met : forall p, (p = "Ez" \/ p = "Hz")%string -> exists s, reachable ex_env s /\ solver_exact ex_env /\
  s_NPML s = (0, 0)%nat /\ s_M s = 4%nat /\ nonsingular (s_M s) (s_A s) /\
  forall av, let src1 := mkNd 2 2 (fun r => if Nat.eqb r 1 then Ci else RtoC 0) in let src2 := mkNd 2 2 (fun r => Cconj (nd_buf src1 r)) in
    nd_buf src1 1%nat <> nd_buf src2 1%nat /\
    (exists s' a b F, solve_fields ex_env false av (upd_src src1 s) = (s', Ok (a, b, F))) /\
    (exists s' a b F, solve_fields ex_env false av (upd_src src2 s) = (s', Ok (a, b, F))).
Proof.
  intros p Hp.
  destruct (sym_ex p ex81_eps 1 Hp ltac:(lra) ltac:(simpl; lia) ltac:(simpl; lia) ltac:(intro; apply ex81_ge)) as [s1 E1].
  exists s1. split; [apply (sy_reach _ _ _ _ E1)|]. split; [apply ex_env_exact|]. split; [apply (sy_fields _ _ _ _ E1)|].
  split; [apply (sy_M _ _ _ _ E1)|]. split; [apply (sy_ns _ _ _ _ E1)|]. intros av src1 src2.
  split; [|split; apply (sym_solvable _ _ _ _ av _ E1); reflexivity].
  cbn. intro H. apply (f_equal Im) in H. unfold Im, Ci, Cconj in H. simpl in H. lra.
Qed.

(* ------------------------------------------------------------------ *)
(** * C84: frequency against permittivity *)
Lemma eps_dir_scal w av L0 Nx Ny (eps1 eps2 : vec) c r : (r < Nx * Ny)%nat ->
  (forall q, (q < Nx * Ny)%nat -> eps2 q = (RtoC c * eps1 q)%C) ->
  eps_dir w av L0 Nx Ny eps2 r = (RtoC c * eps_dir w av L0 Nx Ny eps1 r)%C.
Proof.
  intros Hr H. destruct (pix_bound _ _ _ Hr) as (i & j & Hi & Hj & ->).
  assert (Hp: forall i j, (i < Nx)%nat -> (j < Ny)%nat -> eps2 (pix Ny i j) = (RtoC c * eps1 (pix Ny i j))%C) by (intros; apply H; apply flat_lt; assumption).
  assert (E2: RtoC 2 <> RtoC 0) by (apply RtoC_neq0; lra).
  destruct w; [rewrite !eps_dir_x by assumption|rewrite !eps_dir_y by assumption];
    rewrite !Hp by (try apply prev_lt; assumption); destruct av; try (field; assumption); ring.
Qed.
Lemma ax_scal s d N (a : C) u i : d <> 0%R -> ax s d N (fun k => (a * u k)%C) i = (a * ax s d N u i)%C.
Proof. intro Hd. rewrite <- !(pax_no_pml s 1 1 (0, 0)%R). apply pax_scal; assumption. Qed.
(** ratio of the matrices of the two runs *)
Definition freq_ratio (p : pol) (c : R) : R := match p with PolEz => 1%R | PolHz => (/ c ^ 2)%R end.
Lemma freq_A omega c L0 Nx Ny xr yr (eps1 eps2 : vec) p av x r : (0 < c)%R ->
  fst (dL Nx Ny xr yr) <> 0%R -> snd (dL Nx Ny xr yr) <> 0%R ->
  (forall q, (q < Nx * Ny)%nat -> eps2 q = (RtoC (c ^ 2) * eps1 q)%C) -> (r < Nx * Ny)%nat ->
  mv (Nx * Ny) (fst (construct_A (omega / c) xr yr Nx Ny eps2 (0, 0)%nat p L0 av)) x r =
  (RtoC (freq_ratio p c) * mv (Nx * Ny) (fst (construct_A omega xr yr Nx Ny eps1 (0, 0)%nat p L0 av)) x r)%C.
Proof.
  intros Hc Hdx Hdy He Hr. destruct (pix_bound _ _ _ Hr) as (i & j & Hi & Hj & ->).
  assert (Hp: forall i j, (i < Nx)%nat -> (j < Ny)%nat -> eps2 (pix Ny i j) = (RtoC (c ^ 2) * eps1 (pix Ny i j))%C) by (intros; apply He; apply flat_lt; assumption).
  rewrite !A_grid by assumption. cbn [fst snd]. rewrite !pax_no_pml.
  assert (HC2: (c ^ 2 <> 0)%R) by (apply pow_nonzero; lra).
  assert (GX: forall c', (c' < Nx)%nat -> Ax_g L0 Nx Ny p av eps2 (pix Ny c' j) = (RtoC (freq_ratio p c) * Ax_g L0 Nx Ny p av eps1 (pix Ny c' j))%C).
  { intros c' Hc'. unfold Ax_g, freq_ratio. destruct p; [ring|]. rewrite (eps_dir_scal _ _ _ _ _ eps1 eps2 (c ^ 2)) by (try (apply flat_lt); assumption). apply Cinv_scal_zero; assumption. }
  assert (GY: forall c', (c' < Ny)%nat -> Ay_g L0 Nx Ny p av eps2 (pix Ny i c') = (RtoC (freq_ratio p c) * Ay_g L0 Nx Ny p av eps1 (pix Ny i c'))%C).
  { intros c' Hc'. unfold Ay_g, freq_ratio. destruct p; [ring|]. rewrite (eps_dir_scal _ _ _ _ _ eps1 eps2 (c ^ 2)) by (try (apply flat_lt); assumption). apply Cinv_scal_zero; assumption. }
  assert (GD: Ad_g (omega / c) L0 p eps2 (pix Ny i j) = (RtoC (freq_ratio p c) * Ad_g omega L0 p eps1 (pix Ny i j))%C).
  { unfold Ad_g, freq_ratio. destruct p.
    - rewrite Hp by assumption. replace ((omega / c) ^ 2)%R with (omega ^ 2 * / (c ^ 2))%R by (field; lra). rewrite !RtoC_mult, RtoC_inv by assumption. field. apply RtoC_neq0; assumption.
    - rewrite <- !RtoC_mult. f_equal. field. lra. }
  rewrite GD.
  rewrite (ax_ext Fwd _ Nx _ (fun c' => RtoC (freq_ratio p c) * (Ax_g L0 Nx Ny p av eps1 (pix Ny c' j) * ax Bwd (fst (dL Nx Ny xr yr)) Nx (fun c'' => x (pix Ny c'' j)) c'))%C i Hi).
  2:{ intros c' Hc'. rewrite GX, pax_no_pml by assumption. ring. }
  rewrite (ax_ext Fwd _ Ny _ (fun c' => RtoC (freq_ratio p c) * (Ay_g L0 Nx Ny p av eps1 (pix Ny i c') * ax Bwd (snd (dL Nx Ny xr yr)) Ny (fun c'' => x (pix Ny i c'')) c'))%C j Hj).
  2:{ intros c' Hc'. rewrite GY, pax_no_pml by assumption. ring. }
  rewrite !ax_scal by assumption.
  rewrite (ax_ext Fwd (fst (dL Nx Ny xr yr)) Nx (fun c' => Ax_g L0 Nx Ny p av eps1 (pix Ny c' j) * pax Bwd omega L0 xr (fst (dL Nx Ny xr yr)) Nx 0 (fun c'' => x (pix Ny c'' j)) c')%C
             (fun c' => Ax_g L0 Nx Ny p av eps1 (pix Ny c' j) * ax Bwd (fst (dL Nx Ny xr yr)) Nx (fun c'' => x (pix Ny c'' j)) c')%C i Hi) by (intros; rewrite pax_no_pml; reflexivity).
  rewrite (ax_ext Fwd (snd (dL Nx Ny xr yr)) Ny (fun c' => Ay_g L0 Nx Ny p av eps1 (pix Ny i c') * pax Bwd omega L0 yr (snd (dL Nx Ny xr yr)) Ny 0 (fun c'' => x (pix Ny i c'')) c')%C
             (fun c' => Ay_g L0 Nx Ny p av eps1 (pix Ny i c') * ax Bwd (snd (dL Nx Ny xr yr)) Ny (fun c'' => x (pix Ny i c'')) c')%C j Hj) by (intros; rewrite pax_no_pml; reflexivity).
  ring.
Qed.
(** Lowering the frequency by a factor c and multiplying the permittivity by c^2 in a device without PML: with
    the same source array the in-plane components are unchanged, the component along z is divided
    by c (Ez) or multiplied by c (Hz). *)
Theorem C84_frequency_permittivity : forall e s1 s2 c, reachable e s1 -> reachable e s2 -> solver_exact e -> (0 < c)%R ->
  (0 < s_Nx s1)%nat -> (0 < s_Ny s1)%nat -> s_NPML s1 = (0, 0)%nat ->
  s_L0 s2 = s_L0 s1 -> s_NPML s2 = s_NPML s1 -> s_pol s2 = s_pol s1 -> s_Nx s2 = s_Nx s1 -> s_Ny s2 = s_Ny s1 ->
  s_xrange s2 = s_xrange s1 -> s_yrange s2 = s_yrange s1 ->
  s_omega s2 = (s_omega s1 / c)%R ->
  (forall r, (r < s_M s1)%nat -> nd_buf (s_eps s2) r = (c ^ 2 * nd_buf (s_eps s1) r)%R) ->
  nonsingular (s_M s1) (s_A s1) ->
  forall src av s1' s2' a1 b1 F1 a2 b2 F2,
  solve_fields e false av (upd_src src s1) = (s1', Ok (a1, b1, F1)) ->
  solve_fields e false av (upd_src src s2) = (s2', Ok (a2, b2, F2)) ->
  forall r, (r < s_M s1)%nat ->
    F2 r = match s_pol s1 with PolEz => F1 r / RtoC c | PolHz => RtoC c * F1 r end%C /\ a2 r = a1 r /\ b2 r = b1 r.
Proof.
  intros e s1 s2 c HR1 HR2 He Hc HNx HNy HN G1 G2 G3 G4 G5 G6 G7 G8 Heps HA src av s1' s2' a1 b1 F1 a2 b2 F2 H1 H2.
  assert (HP := reachable_physical e s1 HR1 HNx HNy). destruct (sd_neq0 s1 HP) as [Hdx Hdy].
  destruct (consistent_A s1 (reachable_consistent e s1 HR1)) as [EA1 ED1].
  destruct (consistent_A s2 (reachable_consistent e s2 HR2)) as [EA2 ED2].
  rewrite G1, G2, G3, G4, G5, G6, G7, G8, HN in EA2. rewrite HN in EA1, ED1. rewrite G1, G2, G4, G5, G6, G7, G8, HN in ED2.
  assert (HM := MU_0_pos). destruct HP as (HL & Ho & _).
  assert (EM: s_M s2 = s_M s1) by (unfold s_M; rewrite G4, G5; reflexivity).
  assert (HepsC: forall q, (q < s_Nx s1 * s_Ny s1)%nat -> s_epsC s2 q = (RtoC (c ^ 2) * s_epsC s1 q)%C).
  { intros q Hq. unfold s_epsC, cvec. rewrite (Heps q Hq), RtoC_mult. reflexivity. }
  assert (KA: forall x r, (r < s_M s1)%nat -> mv (s_M s1) (s_A s2) x r = (RtoC (freq_ratio (s_pol s1) c) * mv (s_M s1) (s_A s1) x r)%C).
  { intros x r Hr. rewrite EA1, EA2. apply freq_A; assumption. }
  assert (Hfr: (0 < freq_ratio (s_pol s1) c)%R).
  { unfold freq_ratio. destruct (s_pol s1); [lra|]. apply Rinv_0_lt_compat, pow_lt; assumption. }
  assert (HA2: nonsingular (s_M s2) (s_A s2)) by (rewrite EM; apply (scaled_nonsingular _ _ (s_A s1)) with (3 := HA) (1 := Hfr); exact KA).
  assert (S1 := solve_fields_solves e false av (upd_src src s1) _ _ _ _ He HA H1).
  assert (S2 := solve_fields_solves e false av (upd_src src s2) _ _ _ _ He HA2 H2).
  cbn [used_matrix] in S1, S2. change (s_A (upd_src src ?s)) with (s_A s) in S1, S2. change (s_M (upd_src src ?s)) with (s_M s) in S1, S2.
  rewrite EM in S2, HA2.
  set (g := match s_pol s1 with PolEz => (/ c)%R | PolHz => c end).
  assert (Hg: (freq_ratio (s_pol s1) c * g = / c)%R) by (unfold freq_ratio, g; destruct (s_pol s1); field; lra).
  assert (HcC: RtoC c <> RtoC 0) by (apply RtoC_neq0; lra).
  assert (EF: forall r, (r < s_M s1)%nat -> F2 r = (RtoC g * F1 r)%C).
  { apply (solves_unique (s_M s1) (s_A s2) F2 (vscal (RtoC g) F1) (rhs (upd_src src s2)) HA2 S2).
    intros r Hr. change (mv (s_M s1) (s_A s2) (vscal (RtoC g) F1) r = rhs (upd_src src s2) r).
    rewrite KA, mv_vscal by assumption. assert (Q := S1 r Hr). change (mv (s_M s1) (s_A s1) F1 r = rhs (upd_src src s1) r) in Q. rewrite Q.
    unfold rhs. cbn [upd_src s_src s_omega]. rewrite G8. unfold Rdiv. rewrite (RtoC_mult (s_omega s1)), <- Hg, RtoC_mult. ring. }
  intros r Hr. split; [rewrite (EF r Hr); unfold g; destruct (s_pol s1); [rewrite RtoC_inv by lra; unfold Cdiv; ring|reflexivity]|].
  apply solve_fields_ok in H1. apply solve_fields_ok in H2. destruct H1 as (_ & _ & D1 & _). destruct H2 as (_ & _ & D2 & _). cbn [used_eps] in D1, D2.
  change (derived_fields (upd_src src s1)) with (derived_fields s1) in D1. change (s_epsC (upd_src src s1)) with (s_epsC s1) in D1.
  change (derived_fields (upd_src src s2)) with (derived_fields s2) in D2. change (s_epsC (upd_src src s2)) with (s_epsC s2) in D2.
  assert (KD: forall w, mv (s_M s1) (make_deriv w Bwd (s_omega s1 / c) (s_L0 s1) (s_Nx s1) (s_Ny s1) (0, 0)%nat (s_xrange s1) (s_yrange s1)) F2 r =
    (RtoC g * mv (s_M s1) (make_deriv w Bwd (s_omega s1) (s_L0 s1) (s_Nx s1) (s_Ny s1) (0, 0)%nat (s_xrange s1) (s_yrange s1)) F1 r)%C).
  { intro w. rewrite (mv_ext_v _ _ F2 (vscal (RtoC g) F1) r EF), mv_vscal. reflexivity. }
  assert (HoC: RtoC (s_omega s1) <> RtoC 0) by (apply RtoC_neq0; lra). assert (HCi := Ci_neq0).
  assert (HoI: RtoC (s_omega s1 / c) = (RtoC (s_omega s1) / RtoC c)%C) by (apply RtoC_div; lra).
  unfold derived_fields in D1, D2. rewrite G3, G1, G4, G5, G8, ED2, EM in D2. rewrite ED1 in D1. unfold make_derivs, Dxb, Dyb in D1, D2.
  clear Hg EF HA2 S2 KA Hfr S1. subst g.
  destruct (s_pol s1); injection D1 as -> ->; injection D2 as -> ->; unfold vscal.
  - rewrite !KD, HoI, RtoC_inv by lra. assert (RtoC (MU_0 * s_L0 s1) <> RtoC 0) by (apply RtoC_neq0, Rgt_not_eq, Rmult_lt_0_compat; assumption).
    split; field; auto.
  - unfold spdiags. rewrite !mv_mm, !mv_diag by assumption. rewrite !KD, HoI.
    rewrite (eps_dir_scal AxX av _ _ _ (s_epsC s1) (s_epsC s2) (c ^ 2) r Hr HepsC), (eps_dir_scal AxY av _ _ _ (s_epsC s1) (s_epsC s2) (c ^ 2) r Hr HepsC).
    assert (HC2: (c ^ 2 <> 0)%R) by (apply pow_nonzero; lra).
    rewrite !(Cinv_scal_zero (c ^ 2)) by assumption. rewrite !RtoC_inv by assumption. simpl. rewrite !RtoC_mult.
    set (z1 := (/ eps_dir AxX _ _ _ _ _ _)%C). set (z2 := (/ eps_dir AxY _ _ _ _ _ _)%C).
    split; field; repeat split; auto; apply RtoC_neq0; lra.
Qed.
(** half the frequency, four times the permittivity *)
Example C84_met : forall p, (p = "Ez" \/ p = "Hz")%string -> exists s1 s2, reachable ex_env s1 /\ reachable ex_env s2 /\ solver_exact ex_env /\
  s_NPML s1 = (0, 0)%nat /\ s_L0 s2 = s_L0 s1 /\ s_NPML s2 = s_NPML s1 /\ s_pol s2 = s_pol s1 /\ s_Nx s2 = s_Nx s1 /\ s_Ny s2 = s_Ny s1 /\
  s_xrange s2 = s_xrange s1 /\ s_yrange s2 = s_yrange s1 /\ s_omega s2 = (s_omega s1 / 2)%R /\
  (forall r, (r < s_M s1)%nat -> nd_buf (s_eps s2) r = (2 ^ 2 * nd_buf (s_eps s1) r)%R) /\
  nonsingular (s_M s1) (s_A s1) /\
  forall src av, nd_size src = 4%nat ->
    (exists s' a b F, solve_fields ex_env false av (upd_src src s1) = (s', Ok (a, b, F))) /\
    (exists s' a b F, solve_fields ex_env false av (upd_src src s2) = (s', Ok (a, b, F))).
Proof.
  intros p Hp.
  destruct (sym_ex p ex81_eps 1 Hp ltac:(lra) ltac:(simpl; lia) ltac:(simpl; lia) ltac:(intro; apply ex81_ge)) as [s1 E1].
  set (eps2 := mkNd 2 2 (fun r => (2 ^ 2 * nd_buf ex81_eps r)%R)).
  assert (HS: exists s, Simulation (ex_omega / 2) eps2 1 (Some [0;0]%Z) p 1 = Ok s).
  { unfold Simulation, check_inputs. assert (P := ex_omega_pos). destruct (Rlt_dec 0 1); [|lra]. destruct (Rlt_dec 0 (ex_omega / 2)); [|lra].
    destruct Hp as [-> | ->]; eexists; reflexivity. }
  destruct HS as [s2 HS]. assert (HF := Simulation_fields _ _ _ _ _ _ _ HS).
  destruct HF as (F1 & F2 & F3 & F4 & F5 & F6 & F7 & F8 & _ & _ & F9 & FPz & FPh & _). specialize (F9 0%Z 0%Z eq_refl).
  destruct (sy_fields _ _ _ _ E1) as (A1 & A2 & A3 & A4 & A5 & A6 & A7 & A8 & A9).
  exists s1, s2. split; [apply (sy_reach _ _ _ _ E1)|].
  split; [exists (ex_omega / 2)%R, eps2, 1%R, (Some [0;0]%Z), p, 1%R, s2, []; repeat split; try assumption; try lra; simpl; lia|].
  split; [apply ex_env_exact|]. split; [exact A8|]. split; [congruence|]. split; [rewrite A8; exact F9|].
  split; [rewrite A9; destruct Hp as [-> | ->]; unfold sym_pol; simpl; [apply FPz|apply FPh]; reflexivity|].
  split; [rewrite A3; exact F3|]. split; [rewrite A4; exact F4|].
  split; [rewrite A6, F6; f_equal; simpl; field|]. split; [rewrite A7, F7; f_equal; simpl; field|].
  split; [rewrite A1; exact F1|]. split; [intros r _; rewrite A5, F5; reflexivity|]. split; [apply (sy_ns _ _ _ _ E1)|].
  intros src av Hs. split; [apply (sym_solvable _ _ _ _ av _ E1); exact Hs|].
  destruct (solve_fields_lin ex_env av (upd_src src s2)) as [X [_ HX]].
  - change (nd_size src = s_M s2). unfold s_M. rewrite F3, F4. exact Hs.
  - cbv zeta in HX. do 4 eexists. exact HX.
Qed.
