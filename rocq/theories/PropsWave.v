(** C109: plane waves in a uniform medium. *)
From Coq Require Import Reals Lra Lia List ZArith Arith Bool String Classical.
From Coquelicot Require Import Coquelicot.
From Verif Require Import Base Linear MCore MSim MFilter MOpt MMode Spec PCore PSim PEx PExOpt PMode PropsCore PropsNl PropsSolve PropsLin PropsFlux PSolv PropsSolv.
Import ListNotations.
Local Open Scope nat_scope.

(** ** Specification *)
(** the wave whose phase grows by kx from one pixel to the next in x and by ky in y *)
Definition plane_wave (kx ky : R) (Ny k : nat) : C :=
  let t := (kx * INR (k / Ny) + ky * INR (k mod Ny))%R in (cos t, sin t).
(** the phases per pixel that fit a periodic axis of N pixels *)
Definition phase (N a : nat) : R := (2 * PI * INR a / INR N)%R.
(** square of the wave number on the grid, and in the medium of permittivity e0 *)
Definition lattice (kx ky d : R) : R := ((4 * sin (kx / 2) ^ 2 + 4 * sin (ky / 2) ^ 2) / d ^ 2)%R.
Definition medium (omega L0 e0 : R) : R := (e0 * (omega * L0 / C_0) ^ 2)%R.
(** the material constant of the polarization *)
Definition inertia (p : pol) (L0 e0 : R) : R := match p with PolEz => (MU_0 * L0)%R | PolHz => (EPSILON_0 * L0 * e0)%R end.
(** a uniform medium, without absorbing layer *)
Definition uniform_sim (omega : R) (eps : nd R) (dl : R) (p : string) (L0 e0 : R) (s : sim) : Prop :=
  Simulation omega eps dl (Some [0; 0]%Z) p L0 = Ok s /\ (0 < dl)%R /\ 2 <= nd_nx eps /\ 2 <= nd_ny eps /\
  (0 < e0)%R /\ forall k, k < nd_size eps -> nd_buf eps k = e0.

(** the exact discrete equations without current *)
Definition source_free_wave (s : sim) (e0 : R) (f1 f2 F : vec) : Prop :=
  let D := s_derivs s in let none := fun _ => RtoC 0 in let e := fun _ => RtoC (EPSILON_0 * s_L0 s * e0) in
  match s_pol s with
  | PolEz => maxwell_Ez (s_M s) (Dxf D) (Dxb D) (Dyf D) (Dyb D) (s_omega s) (MU_0 * s_L0 s) e none f1 f2 F
  | PolHz => maxwell_Hz (s_M s) (Dxf D) (Dxb D) (Dyf D) (Dyb D) (s_omega s) (MU_0 * s_L0 s) e e none f1 f2 F
  end.
(** what flux_probe should read: the power that crosses the interface between pixel (i,j) and the one
    before it, where the in-plane field lives *)
Definition interface_x (p : pol) (Nx Ny : nat) (z f2 : vec) (i j : nat) : R :=
  let zm := ((z (pix Ny i j) + z (pix Ny (prev Nx i) j)) / RtoC 2)%C in let v := f2 (pix Ny i j) in let o := RtoC 0 in
  match p with PolEz => fst (poynting_vector o o zm o v o) | PolHz => fst (poynting_vector o v o o o zm) end.
Definition interface_y (p : pol) (Ny : nat) (z f1 : vec) (i j : nat) : R :=
  let zm := ((z (pix Ny i j) + z (pix Ny i (prev Ny j))) / RtoC 2)%C in let v := f1 (pix Ny i j) in let o := RtoC 0 in
  match p with PolEz => snd (poynting_vector o o zm v o o) | PolHz => snd (poynting_vector v o o o o zm) end.

(** ** Proofs *)
Lemma C_0_sq : (C_0 * C_0 * (EPSILON_0 * MU_0) = 1)%R.
Proof.
  assert (HE := EPSILON_0_pos). assert (HM := MU_0_pos). unfold C_0. revert HE HM. generalize EPSILON_0 MU_0. intros E M HE HM.
  rewrite sqrt_sqrt; [field; lra|]. apply Rlt_le. unfold Rdiv. repeat apply Rmult_lt_0_compat; try apply Rinv_0_lt_compat; lra.
Qed.
Lemma C_0_pos : (0 < C_0)%R.
Proof.
  assert (HE := EPSILON_0_pos). assert (HM := MU_0_pos). unfold C_0. revert HE HM. generalize EPSILON_0 MU_0. intros E M HE HM.
  apply sqrt_lt_R0. unfold Rdiv. repeat apply Rmult_lt_0_compat; try apply Rinv_0_lt_compat; lra.
Qed.
Lemma ETA_0_C : (ETA_0 = MU_0 * C_0)%R.
Proof.
  assert (H1 := C_0_sq). assert (H2 := C_0_pos). assert (HE := EPSILON_0_pos). assert (HM := MU_0_pos).
  unfold ETA_0. apply sqrt_lem_1.
  - apply Rlt_le. unfold Rdiv. apply Rmult_lt_0_compat; [|apply Rinv_0_lt_compat]; assumption.
  - apply Rlt_le, Rmult_lt_0_compat; assumption.
  - revert H1 H2 HE HM. generalize EPSILON_0 MU_0 C_0. intros E M c H1 H2 HE HM.
    apply Rmult_eq_reg_r with E; [|lra]. unfold Rdiv. rewrite (Rmult_assoc M (/ E) E), Rinv_l by lra.
    transitivity (M * (c * c * (E * M)))%R; [ring|]. rewrite H1. reflexivity.
Qed.
Lemma plane_is Nx Ny a b k : plane Nx Ny a b k = plane_wave (phase Nx a) (phase Ny b) Ny k.
Proof.
  unfold plane, plane_wave, wave, phase. rewrite <- cis_plus. unfold cis. f_equal; f_equal; unfold Rdiv; ring.
Qed.
Lemma wave_half x : (RtoC 1 - cis (- x))%C = (cis (- (x / 2)) * (Ci * RtoC (2 * sin (x / 2))))%C.
Proof.
  assert (E : x = (x / 2 + x / 2)%R) by field. rewrite E at 1. set (h := (x / 2)%R). clearbody h.
  unfold cis, Ci. apply injective_projections; cbn [fst snd Cminus Cplus Copp Cmult RtoC]; rewrite cos_neg, sin_neg, ?cos_plus, ?sin_plus, ?cos_neg, ?sin_neg.
  - assert (Q := sin2_cos2 h). unfold Rsqr in Q. nra.
  - ring.
Qed.
Lemma Cnorm2_cis t : Cnorm2 (cis t) = 1%R.
Proof. unfold Cnorm2, cis, Re, Im. cbn [fst snd]. assert (Q := sin2_cos2 t). unfold Rsqr in Q. lra. Qed.
Lemma Cnorm2_half x : Cnorm2 (RtoC 1 - cis (- x))%C = (4 * sin (x / 2) ^ 2)%R.
Proof.
  rewrite wave_half. rewrite <- !Cmod2, !Cmod_mult, !Rpow_mult_distr, !Cmod2, Cnorm2_cis.
  unfold Cnorm2, Ci, RtoC, Re, Im. cbn [fst snd]. ring.
Qed.

Section Wave.
Variables (omega : R) (eps : nd R) (dl : R) (p : string) (L0 e0 : R) (s : sim).
Hypothesis H : uniform_sim omega eps dl p L0 e0 s.
Notation Nx := (nd_nx eps). Notation Ny := (nd_ny eps). Notation M := (nd_nx eps * nd_ny eps).
Notation P := (if String.eqb p "Ez" then PolEz else PolHz).
Lemma w_facts : (0 < omega)%R /\ (0 < L0)%R /\ s_M s = M /\ s_Nx s = Nx /\ s_Ny s = Ny /\ s_omega s = omega /\ s_L0 s = L0 /\ s_eps s = eps /\ s_dl s = dl /\ s_pol s = P /\
  s_A s = fst (construct_A omega (0, INR Nx * dl)%R (0, INR Ny * dl)%R Nx Ny (cvec (nd_buf eps)) (0, 0) P L0 true).
Proof.
  destruct H as (HS & _). destruct (Simulation_matrix _ _ _ _ _ _ _ HS) as (px & py & E & HM & Hw & HL & EA). injection E as <- <-.
  assert (F := Simulation_fields _ _ _ _ _ _ _ HS). destruct F as (E1 & E2 & E3 & E4 & E5 & _ & _ & E8 & _ & _ & _ & EP1 & EP2 & _).
  repeat split; try assumption. destruct (String.eqb_spec p "Ez"); [apply EP1; assumption|].
  destruct (string_dec p "Hz") as [Q|Q]; [apply EP2, Q|]. exfalso. unfold Simulation, check_inputs in HS.
  destruct (Rlt_dec 0 L0); [|discriminate]. destruct (Rlt_dec 0 omega); [|discriminate]. cbn [andb Z.leb Z.compare] in HS.
  destruct (String.eqb_spec p "Ez"); [contradiction|]. destruct (String.eqb_spec p "Hz"); [contradiction|]. discriminate HS.
Qed.
Lemma w_dL : dL Nx Ny (0, INR Nx * dl)%R (0, INR Ny * dl)%R = (dl, dl).
Proof. destruct H as (_ & _ & H2 & H3 & _). apply dL_new; lia. Qed.
Variables (a b : nat).
Notation kx := (phase Nx a). Notation ky := (phase Ny b).
Notation W := (plane_wave kx ky Ny).
Lemma w_diff i j : i < Nx -> j < Ny ->
  mv M (Dxb (s_derivs s)) W (pix Ny i j) = ((RtoC 1 - cis (- kx)) / RtoC dl * W (pix Ny i j))%C /\
  mv M (Dyb (s_derivs s)) W (pix Ny i j) = ((RtoC 1 - cis (- ky)) / RtoC dl * W (pix Ny i j))%C /\
  mv M (Dxf (s_derivs s)) W (pix Ny i j) = ((cis kx - RtoC 1) / RtoC dl * W (pix Ny i j))%C /\
  mv M (Dyf (s_derivs s)) W (pix Ny i j) = ((cis ky - RtoC 1) / RtoC dl * W (pix Ny i j))%C.
Proof.
  intros Hi Hj. destruct H as (HS & Hd & H2 & H3 & _).
  destruct (C01_derivatives_are_periodic_differences omega eps dl p L0 s Hd H2 H3 HS W i j Hi Hj) as (E1 & E2 & E3 & E4).
  rewrite E1, E2, E3, E4. unfold diff_xb, diff_yb, diff_xf, diff_yf.
  assert (X : forall k, W k = plane Nx Ny a b k) by (intro; symmetry; apply plane_is). rewrite !X.
  assert (P1 := prev_lt Nx i Hi). assert (P2 := prev_lt Ny j Hj). assert (N1 := next_lt Nx i Hi). assert (N2 := next_lt Ny j Hj).
  rewrite !plane_pix by assumption. rewrite !wave_prev, !wave_next by assumption. fold (phase Nx a) (phase Ny b).
  assert (HdC : RtoC dl <> RtoC 0) by (apply RtoC_neq0; lra). repeat split; field; exact HdC.
Qed.
Lemma w_factor : factor P L0 dl e0 omega Nx Ny a b = ((medium omega L0 e0 - lattice kx ky dl) / inertia P L0 e0)%R.
Proof.
  destruct w_facts as (Hw & HL & _). destruct H as (_ & Hd & _ & _ & H0 & _).
  assert (Q1 := C_0_sq). assert (Q2 := C_0_pos). assert (HE := EPSILON_0_pos). assert (HM := MU_0_pos).
  assert (K1 : (PI * INR a / INR Nx = kx / 2)%R) by (unfold phase, Rdiv; lra). assert (K2 : (PI * INR b / INR Ny = ky / 2)%R) by (unfold phase, Rdiv; lra).
  unfold factor, medium, lattice, inertia. rewrite K1, K2. set (S := (4 * sin (kx / 2) ^ 2 + 4 * sin (ky / 2) ^ 2)%R). clearbody S.
  revert Q1 Q2 HE HM. generalize EPSILON_0 MU_0 C_0. intros E U c Q1 Q2 HE HM.
  assert (Q3 : (/ (c * c) = E * U)%R) by (apply Rmult_eq_reg_l with (c * c)%R; [rewrite Rinv_r by nra; lra|nra]).
  assert (Q4 : ((omega * L0 / c) ^ 2 = omega ^ 2 * L0 ^ 2 * (E * U))%R) by (rewrite <- Q3; field; lra).
  rewrite Q4. destruct (String.eqb p "Ez"); field; repeat split; lra.
Qed.
Lemma w_A k : k < M -> mv M (s_A s) W k = (RtoC ((medium omega L0 e0 - lattice kx ky dl) / inertia P L0 e0) * W k)%C.
Proof.
  intros Hk. destruct (pix_bound _ _ _ Hk) as (i & j & Hi & Hj & ->).
  destruct w_facts as (Hw & HL & _ & _ & _ & _ & _ & _ & _ & _ & EA). assert (HD := w_dL). rewrite EA, <- w_factor.
  destruct H as (_ & Hd & H2 & H3 & H0 & Hu).
  rewrite (mv_ext_v M _ W (plane Nx Ny a b)) by (intros r _; symmetry; apply plane_is).
  rewrite <- plane_is. assert (PNx : 0 < Nx) by lia. assert (PNy : 0 < Ny) by lia.
  apply (A_plane L0 Nx Ny (0, INR Nx * dl)%R (0, INR Ny * dl)%R P true (nd_buf eps) dl e0 omega); try assumption; apply side_pos; assumption.
Qed.
Lemma w_inertia : (0 < inertia P L0 e0)%R.
Proof.
  destruct w_facts as (Hw & HL & _). destruct H as (_ & _ & _ & _ & H0 & _). assert (HE := EPSILON_0_pos). assert (HM := MU_0_pos).
  unfold inertia. destruct (String.eqb p "Ez"); revert HE HM; generalize EPSILON_0 MU_0; intros; repeat apply Rmult_lt_0_compat; assumption.
Qed.
Lemma w_derived c F av J k : k < M -> veq M F (fun k => c * W k)%C ->
  let '(f1, f2) := derived_fields (upd_src J s) (s_epsC s) av F in
  let g := (RtoC (match P with PolEz => 1 | PolHz => -1 end) / (RtoC dl * Ci * RtoC (omega * inertia P L0 e0)))%C in
  f1 k = (- g * (RtoC 1 - cis (- ky)) * F k)%C /\ f2 k = (g * (RtoC 1 - cis (- kx)) * F k)%C.
Proof.
  intros Hk HF. assert (HI := w_inertia). destruct w_facts as (Hw & HL & EM & ENx & ENy & Eo & EL & Ee & Edl & EP & _). assert (HD := w_dL).
  destruct (pix_bound _ _ _ Hk) as (i & j & Hi & Hj & Ek).
  destruct (w_diff i j Hi Hj) as (D1 & D2 & _ & _). rewrite <- Ek in D1, D2.
  assert (HU := H). destruct HU as (_ & Hd & H2 & H3 & H0 & Hu).
  assert (G : forall Dm : mat, mv M Dm F k = (c * mv M Dm W k)%C).
  { intro Dm. rewrite (mv_ext_v M Dm F (vscal c W)) by (intros r Hr; apply HF; exact Hr). apply mv_vscal. }
  assert (HF' := HF k Hk).
  assert (HdC : RtoC dl <> RtoC 0) by (apply RtoC_neq0; lra). assert (HoC : RtoC omega <> RtoC 0) by (apply RtoC_neq0; lra).
  assert (HIC : RtoC (inertia P L0 e0) <> RtoC 0) by (apply RtoC_neq0; lra). assert (HCi := Ci_neq0).
  assert (EPd : forall ax, eps_dir ax av L0 Nx Ny (s_epsC s) k = RtoC (EPSILON_0 * L0 * e0)).
  { intro ax. unfold s_epsC. rewrite Ee, Ek. assert (PNx : 0 < Nx) by lia. assert (PNy : 0 < Ny) by lia.
    apply (eps_dir_uniform L0 Nx Ny av (nd_buf eps)); assumption. }
  unfold derived_fields, upd_src, s_M. cbn [s_pol s_Nx s_Ny s_omega s_L0 s_derivs].
  rewrite EP, ENx, ENy, Eo, EL. rewrite HF'.
  unfold inertia in *. destruct (String.eqb p "Ez"); cbv zeta; unfold vscal.
  - rewrite !G, D1, D2, (RtoC_mult omega). split; field; repeat split; assumption.
  - rewrite !mv_mm. unfold spdiags. rewrite !mv_diag by exact Hk. rewrite !EPd, !G, D1, D2, (RtoC_mult omega). replace (RtoC (-1)) with (- RtoC 1)%C by (rewrite <- RtoC_opp; reflexivity).
    split; field; repeat split; assumption.
Qed.
Lemma w_norm c (F f1 f2 : vec) k : f1 k = (- c * (RtoC 1 - cis (- ky)) * F k)%C -> f2 k = (c * (RtoC 1 - cis (- kx)) * F k)%C ->
  (Cmod (f1 k) ^ 2 + Cmod (f2 k) ^ 2 = Cmod c ^ 2 * (4 * sin (kx / 2) ^ 2 + 4 * sin (ky / 2) ^ 2) * Cmod (F k) ^ 2)%R.
Proof.
  intros -> ->. rewrite !Cmod_mult, !Rpow_mult_distr, Cmod_opp, (Cmod2 (RtoC 1 - cis (- kx))%C), (Cmod2 (RtoC 1 - cis (- ky))%C), !Cnorm2_half. ring.
Qed.
Lemma w_gmod : (Cmod (RtoC (match P with PolEz => 1 | PolHz => -1 end) / (RtoC dl * Ci * RtoC (omega * inertia P L0 e0)))%C ^ 2 = 1 / (dl ^ 2 * (omega * inertia P L0 e0) ^ 2))%R.
Proof.
  assert (HI := w_inertia). destruct w_facts as (Hw & _). destruct H as (_ & Hd & _).
  set (m := inertia P L0 e0) in *. clearbody m. set (q := match P with PolEz => 1%R | PolHz => (-1)%R end).
  assert (Hq : (q ^ 2 = 1)%R) by (unfold q; destruct (String.eqb p "Ez"); ring). clearbody q.
  assert (E : (RtoC q / (RtoC dl * Ci * RtoC (omega * m)) = - Ci * RtoC (q / (dl * (omega * m))))%C).
  { assert (C1 : RtoC dl <> RtoC 0) by (apply RtoC_neq0; lra). assert (C2 : RtoC omega <> RtoC 0) by (apply RtoC_neq0; lra). assert (C3 : RtoC m <> RtoC 0) by (apply RtoC_neq0; lra).
    assert (C4 := Ci_neq0). assert (C5 : (Ci * Ci = - RtoC 1)%C) by (unfold Ci; apply injective_projections; cbn; ring).
    unfold Rdiv. rewrite (RtoC_mult q), RtoC_inv, !RtoC_mult by (apply Rgt_not_eq; repeat apply Rmult_lt_0_compat; assumption).
    transitivity (RtoC q * (- (Ci * Ci)) / (RtoC dl * Ci * (RtoC omega * RtoC m)))%C; [rewrite C5; field; repeat split; assumption|field; repeat split; assumption]. }
  rewrite E, Cmod2. unfold Cnorm2, Ci, RtoC, Re, Im. cbn [fst snd Cmult Copp]. unfold Rdiv. rewrite Rinv_mult.
  transitivity (q ^ 2 * (/ dl * / (omega * m)) ^ 2)%R; [ring|]. rewrite Hq. field. repeat split; lra.
Qed.
End Wave.

(** ** Theorems *)
(** The field that a plane-wave current excites. *)
Theorem C109_response :
  forall e omega eps dl p L0 e0 s a b amp J av s1 f1 f2 F,
  solver_exact e -> uniform_sim omega eps dl p L0 e0 s -> one_field s -> a < nd_nx eps -> b < nd_ny eps ->
  let kx := phase (nd_nx eps) a in let ky := phase (nd_ny eps) b in
  let m := inertia (if String.eqb p "Ez" then PolEz else PolHz) L0 e0 in
  let sign := (if String.eqb p "Ez" then 1 else -1)%R in
  nd_size J = nd_size eps -> (forall k, k < nd_size eps -> nd_buf J k = (amp * plane_wave kx ky (nd_ny eps) k)%C) ->
  solve_fields e false av (upd_src J s) = (s1, Ok (f1, f2, F)) ->
  medium omega L0 e0 <> lattice kx ky dl /\
  forall k, k < nd_size eps ->
    F k = (amp * Ci * RtoC (omega * m / (medium omega L0 e0 - lattice kx ky dl)) * plane_wave kx ky (nd_ny eps) k)%C /\
    f1 k = (- (RtoC sign / (RtoC dl * Ci * RtoC (omega * m))) * (RtoC 1 - (cos ky, - sin ky)%R) * F k)%C /\
    f2 k = (RtoC sign / (RtoC dl * Ci * RtoC (omega * m)) * (RtoC 1 - (cos kx, - sin kx)%R) * F k)%C /\
    (Cmod (f1 k) ^ 2 + Cmod (f2 k) ^ 2 = lattice kx ky dl / (omega * m) ^ 2 * Cmod (F k) ^ 2)%R.
Proof.
  intros e omega eps dl p L0 e0 s a b amp J av s1 f1 f2 F HE HU HO Ha Hb kx ky m sign HJ HJv HS.
  assert (HI := w_inertia _ _ _ _ _ _ _ HU). assert (HF := w_facts _ _ _ _ _ _ _ HU).
  destruct HF as (Hw & HL & EM & ENx & ENy & Eo & EL & Ee & Edl & EP & EA).
  assert (WA := w_A _ _ _ _ _ _ _ HU a b).
  fold kx ky in WA. set (P := if String.eqb p "Ez" then PolEz else PolHz) in *. fold m in HI, WA.
  assert (HU' := HU). destruct HU' as (HSim & Hd & H2 & H3 & H0 & Hu).
  assert (Hne : medium omega L0 e0 <> lattice kx ky dl).
  { intro E. assert (Q := proj1 (C106_uniform_medium _ _ _ _ _ _ _ HSim Hd H2 H3 H0 Hu) HO a b Ha Hb).
    apply Q. assert (Q1 := C_0_sq). assert (Q2 := C_0_pos).
    assert (K1 : (PI * INR a / INR (nd_nx eps) = kx / 2)%R) by (unfold kx, phase, Rdiv; lra).
    assert (K2 : (PI * INR b / INR (nd_ny eps) = ky / 2)%R) by (unfold ky, phase, Rdiv; lra). rewrite K1, K2.
    revert E Q1 Q2. unfold medium, lattice. generalize EPSILON_0 MU_0 C_0. intros ee uu c E Q1 Q2.
    assert (Q3 : (/ (c * c) = ee * uu)%R) by (apply Rmult_eq_reg_l with (c * c)%R; [rewrite Rinv_r by nra; lra|nra]).
    assert (Q4 : ((omega * L0 / c) ^ 2 = omega ^ 2 * L0 ^ 2 * (ee * uu))%R) by (rewrite <- Q3; field; lra).
    rewrite Q4 in E. apply (f_equal (fun x => x * dl ^ 2)%R) in E.
    replace ((4 * sin (kx / 2) ^ 2 + 4 * sin (ky / 2) ^ 2) / dl ^ 2 * dl ^ 2)%R with (4 * sin (kx / 2) ^ 2 + 4 * sin (ky / 2) ^ 2)%R in E by (field; lra).
    rewrite <- E. ring. }
  split; [exact Hne|].
  set (c := (amp * Ci * RtoC (omega * m / (medium omega L0 e0 - lattice kx ky dl)))%C).
  assert (HN : nonsingular (s_M s) (s_A s)) by (apply one_field_iff; exact HO).
  assert (SX : solves (s_M s) (s_A s) F (rhs (upd_src J s))) by exact (solve_fields_solves e false av (upd_src J s) s1 f1 f2 F HE HN HS).
  assert (HFW : veq (nd_nx eps * nd_ny eps) F (fun k => c * plane_wave kx ky (nd_ny eps) k)%C).
  { rewrite <- EM. apply (solves_unique _ _ _ _ _ HN SX). intros r Hr. rewrite EM in Hr.
    change (mv (s_M s) (s_A s) (vscal c (plane_wave kx ky (nd_ny eps))) r = rhs (upd_src J s) r).
    rewrite mv_vscal, EM, WA by exact Hr. unfold rhs, upd_src. cbn [s_src s_omega]. rewrite HJv by exact Hr. rewrite Eo. unfold c, Rdiv.
    assert (D0 : (medium omega L0 e0 - lattice kx ky dl <> 0)%R) by lra.
    set (D := (medium omega L0 e0 - lattice kx ky dl)%R) in *. clearbody D.
    rewrite !RtoC_mult, !RtoC_inv by lra.
    assert (C1 : RtoC D <> RtoC 0) by (apply RtoC_neq0; exact D0). assert (C2 : RtoC m <> RtoC 0) by (apply RtoC_neq0; lra). field. split; assumption. }
  intros k Hk. assert (HFk := HFW k Hk). cbv beta in HFk.
  destruct (solve_fields_ok _ _ _ _ _ _ _ _ HS) as (_ & _ & HDf & _).
  assert (WD := w_derived _ _ _ _ _ _ _ HU a b c F av J k Hk HFW). change (used_eps false (upd_src J s)) with (s_epsC s) in HDf. rewrite <- HDf in WD.
  fold P kx ky m in WD. cbv zeta in WD.
  assert (WG := w_gmod _ _ _ _ _ _ _ HU). fold P m in WG.
  assert (ES : match P with PolEz => 1%R | PolHz => (-1)%R end = sign) by (unfold P, sign; destruct (String.eqb p "Ez"); reflexivity).
  rewrite ES in WD, WG. destruct WD as (W1 & W2).
  assert (C1 : forall t, cis (- t) = (cos t, - sin t)%R) by (intro t; unfold cis; rewrite cos_neg, sin_neg; reflexivity).
  repeat split.
  - exact HFk.
  - rewrite <- C1. exact W1.
  - rewrite <- C1. exact W2.
  - rewrite (w_norm eps a b _ F f1 f2 k W1 W2), WG. unfold lattice. fold kx ky. field. repeat split; lra.
Qed.

Lemma wave_second x : ((RtoC 1 - cis (- x)) * (cis x - RtoC 1) = RtoC (- (4 * sin (x / 2) ^ 2)))%C.
Proof.
  assert (E : x = (x / 2 + x / 2)%R) by field. rewrite E at 1 2. set (h := (x / 2)%R). clearbody h.
  assert (Q := sin2_cos2 h). unfold Rsqr in Q.
  unfold cis. apply injective_projections; cbn [fst snd Cminus Cplus Copp Cmult RtoC]; rewrite cos_neg, sin_neg, ?cos_plus, ?sin_plus.
  - replace (cos h * cos h)%R with (1 - sin h * sin h)%R by lra.
    transitivity (2 * ((1 - sin h * sin h) - sin h * sin h) - ((1 - sin h * sin h) - sin h * sin h) ^ 2 - (2 * sin h) ^ 2 * (cos h * cos h) - 1)%R; [ring|].
    replace (cos h * cos h)%R with (1 - sin h * sin h)%R by lra. ring.
  - ring.
Qed.
Lemma medium_is omega L0 e0 : medium omega L0 e0 = (omega ^ 2 * (MU_0 * L0) * (EPSILON_0 * L0 * e0))%R.
Proof.
  assert (Q1 := C_0_sq). assert (Q2 := C_0_pos). unfold medium. revert Q1 Q2. generalize EPSILON_0 MU_0 C_0. intros ee uu c Q1 Q2.
  assert (Q3 : (/ (c * c) = ee * uu)%R) by (apply Rmult_eq_reg_l with (c * c)%R; [rewrite Rinv_r by nra; lra|nra]).
  assert (Q4 : ((omega * L0 / c) ^ 2 = omega ^ 2 * L0 ^ 2 * (ee * uu))%R) by (rewrite <- Q3; field; lra).
  rewrite Q4. ring.
Qed.

(** A plane wave that fits the grid is a solution without currents exactly when its wave number on
    the grid is that of the medium, and then the ratio of the fields is the impedance of the medium. *)
Theorem C109_free_waves :
  forall omega eps dl p L0 e0 s a b, uniform_sim omega eps dl p L0 e0 s -> a < nd_nx eps -> b < nd_ny eps ->
  let kx := phase (nd_nx eps) a in let ky := phase (nd_ny eps) b in let W := plane_wave kx ky (nd_ny eps) in
  ((exists f1 f2, source_free_wave s e0 f1 f2 W) <-> lattice kx ky dl = medium omega L0 e0) /\
  forall f1 f2 k, source_free_wave s e0 f1 f2 W -> k < nd_size eps ->
    sqrt (Cmod (f1 k) ^ 2 + Cmod (f2 k) ^ 2) =
    (match s_pol s with PolEz => sqrt e0 / ETA_0 | PolHz => ETA_0 / sqrt e0 end * Cmod (W k))%R.
Proof.
  intros omega eps dl p L0 e0 s a b HU Ha Hb kx ky W.
  assert (HI := w_inertia _ _ _ _ _ _ _ HU). assert (HF := w_facts _ _ _ _ _ _ _ HU).
  destruct HF as (Hw & HL & EM & ENx & ENy & Eo & EL & Ee & Edl & EP & EA).
  assert (WG := w_gmod _ _ _ _ _ _ _ HU). assert (WD := w_diff _ _ _ _ _ _ _ HU a b). fold kx ky W in WD.
  assert (HU' := HU). destruct HU' as (HSim & Hd & H2 & H3 & H0 & Hu).
  set (P := if String.eqb p "Ez" then PolEz else PolHz) in *. set (m := inertia P L0 e0) in *.
  set (g := (RtoC (match P with PolEz => 1 | PolHz => -1 end) / (RtoC dl * Ci * RtoC (omega * m)))%C) in *.
  assert (HE := EPSILON_0_pos). assert (HMU := MU_0_pos).
  assert (C1 : RtoC dl <> RtoC 0) by (apply RtoC_neq0; lra). assert (C2 : RtoC omega <> RtoC 0) by (apply RtoC_neq0; lra).
  assert (C3 : RtoC m <> RtoC 0) by (apply RtoC_neq0; lra). assert (C4 := Ci_neq0).
  assert (C5 : (Ci * Ci = - RtoC 1)%C) by (unfold Ci; apply injective_projections; cbn; ring).
  set (D := s_derivs s) in *. set (M := nd_nx eps * nd_ny eps) in *.
  (* the first two equations determine f1 and f2 *)
  assert (First : forall f1 f2, source_free_wave s e0 f1 f2 W -> forall k, k < M ->
     f1 k = (- g * (RtoC 1 - cis (- ky)) * W k)%C /\ f2 k = (g * (RtoC 1 - cis (- kx)) * W k)%C).
  { intros f1 f2 HM k Hk. destruct (pix_bound _ _ _ Hk) as (i & j & Hi & Hj & Ek). destruct (WD i j Hi Hj) as (D1 & D2 & _ & _).
    rewrite <- Ek in D1, D2. unfold source_free_wave in HM. rewrite EP, EM, Eo, EL in HM.
    unfold g, m, inertia in *. destruct P.
    - destruct (HM k Hk) as (E1 & E2 & _). fold D M in E1, E2. rewrite D2 in E1. rewrite D1 in E2. rewrite RtoC_mult.
      split.
      + transitivity (- (- (Ci * RtoC omega * RtoC (MU_0 * L0)) * f1 k) / (Ci * RtoC omega * RtoC (MU_0 * L0)))%C; [field; repeat split; assumption|].
        rewrite <- E1. field. repeat split; assumption.
      + transitivity ((Ci * RtoC omega * RtoC (MU_0 * L0) * f2 k) / (Ci * RtoC omega * RtoC (MU_0 * L0)))%C; [field; repeat split; assumption|].
        rewrite <- E2. field. repeat split; assumption.
    - destruct (HM k Hk) as (E1 & E2 & _). fold D M in E1, E2. rewrite D2 in E1. rewrite D1 in E2. rewrite RtoC_mult. replace (RtoC (-1)) with (- RtoC 1)%C by (rewrite <- RtoC_opp; reflexivity).
      split.
      + transitivity ((Ci * RtoC omega * RtoC (EPSILON_0 * L0 * e0) * f1 k) / (Ci * RtoC omega * RtoC (EPSILON_0 * L0 * e0)))%C; [field; repeat split; assumption|].
        rewrite <- E1. field. repeat split; assumption.
      + transitivity (- (- (Ci * RtoC omega * RtoC (EPSILON_0 * L0 * e0)) * f2 k) / (Ci * RtoC omega * RtoC (EPSILON_0 * L0 * e0)))%C; [field; repeat split; assumption|].
        rewrite <- E2. field. repeat split; assumption. }
  assert (Second : forall f1 f2 : vec, (forall k, k < M -> f1 k = (- g * (RtoC 1 - cis (- ky)) * W k)%C /\ f2 k = (g * (RtoC 1 - cis (- kx)) * W k)%C) ->
     forall k, k < M -> (mv M (Dxf D) f2 k - mv M (Dyf D) f1 k = - g * RtoC (dl * lattice kx ky dl) * W k)%C).
  { intros f1 f2 Hf k Hk. destruct (pix_bound _ _ _ Hk) as (i & j & Hi & Hj & Ek). destruct (WD i j Hi Hj) as (_ & _ & D3 & D4).
    rewrite <- Ek in D3, D4.
    rewrite (mv_ext_v M (Dxf D) f2 (vscal (g * (RtoC 1 - cis (- kx)))%C W)) by (intros r Hr; apply Hf; exact Hr).
    rewrite (mv_ext_v M (Dyf D) f1 (vscal (- g * (RtoC 1 - cis (- ky)))%C W)) by (intros r Hr; apply Hf; exact Hr).
    rewrite !mv_vscal, D3, D4.
    transitivity (g * ((RtoC 1 - cis (- kx)) * (cis kx - RtoC 1) + (RtoC 1 - cis (- ky)) * (cis ky - RtoC 1)) / RtoC dl * W k)%C; [field; assumption|].
    rewrite !wave_second, <- RtoC_plus. unfold lattice.
    replace (dl * ((4 * sin (kx / 2) ^ 2 + 4 * sin (ky / 2) ^ 2) / dl ^ 2))%R with (- (- (4 * sin (kx / 2) ^ 2) + - (4 * sin (ky / 2) ^ 2)) * / dl)%R by (field; lra).
    rewrite RtoC_mult, RtoC_inv, RtoC_opp by lra. field. assumption. }
  assert (HM0 : 0 < M) by (unfold M; apply Nat.mul_pos_pos; lia).
  assert (W0 : W 0 = RtoC 1).
  { unfold W, plane_wave. rewrite Nat.div_0_l, Nat.mod_0_l by lia. cbn [INR]. rewrite !Rmult_0_r, Rplus_0_r, cos_0, sin_0. reflexivity. }
  set (m' := match P with PolEz => (EPSILON_0 * L0 * e0)%R | PolHz => (MU_0 * L0)%R end).
  assert (Hm : medium omega L0 e0 = (omega ^ 2 * m * m')%R) by (rewrite medium_is; unfold m, m', inertia; destruct P; ring).
  set (Lam := lattice kx ky dl) in *.
  assert (Key : forall z : C, z <> RtoC 0 -> ((- (RtoC 1 / (RtoC dl * Ci * RtoC (omega * m))) * RtoC (dl * Lam) * z = Ci * RtoC omega * RtoC m' * z + RtoC 0)%C <-> Lam = medium omega L0 e0)).
  { intros z Hz.
    assert (E1 : (- (RtoC 1 / (RtoC dl * Ci * RtoC (omega * m))) * RtoC (dl * Lam) * z = Ci * z * RtoC (Lam / (omega * m)))%C).
    { unfold Rdiv. rewrite (RtoC_mult dl), (RtoC_mult Lam), RtoC_inv, !RtoC_mult by (apply Rgt_not_eq, Rmult_lt_0_compat; assumption).
      transitivity ((Ci * Ci) / (RtoC dl * Ci * (RtoC omega * RtoC m)) * (RtoC dl * RtoC Lam) * z)%C; [rewrite C5|]; field; repeat split; assumption. }
    assert (E2 : (Ci * RtoC omega * RtoC m' * z + RtoC 0 = Ci * z * RtoC (omega * m'))%C) by (rewrite RtoC_mult; ring).
    rewrite E1, E2, Hm. split; intro E.
    - assert (E3 : (Lam / (omega * m) = omega * m')%R).
      { apply RtoC_inj. transitivity (Ci * z * RtoC (Lam / (omega * m)) / (Ci * z))%C; [field; split; assumption|]. rewrite E. field; split; assumption. }
      replace Lam with (Lam / (omega * m) * (omega * m))%R by (field; lra). rewrite E3. ring.
    - rewrite E. do 2 f_equal. field. lra. }
  assert (G1 : match P with PolEz => (- g = - (RtoC 1 / (RtoC dl * Ci * RtoC (omega * m))))%C | PolHz => (g = - (RtoC 1 / (RtoC dl * Ci * RtoC (omega * m))))%C end).
  { assert (C6 : RtoC (omega * m) <> RtoC 0) by (apply RtoC_neq0, Rgt_not_eq, Rmult_lt_0_compat; assumption).
    unfold g. destruct P; [reflexivity|]. replace (RtoC (-1)) with (- RtoC 1)%C by (rewrite <- RtoC_opp; reflexivity). field. repeat split; assumption. }
  assert (WN : forall k, W k <> RtoC 0).
  { intros k E. assert (Q : Cnorm2 (W k) = 1%R) by apply Cnorm2_cis. rewrite E in Q. unfold Cnorm2, Re, Im in Q. cbn in Q. lra. }
  assert (Third : forall f1 f2, source_free_wave s e0 f1 f2 W -> Lam = medium omega L0 e0).
  { intros f1 f2 HM. assert (HS := Second f1 f2 (First f1 f2 HM) 0 HM0). apply (Key (W 0) (WN 0)).
    unfold source_free_wave in HM. rewrite EP, EM, Eo, EL in HM. unfold m' in *. destruct P.
    - destruct (HM 0 HM0) as (_ & _ & E3). fold D M in E3. rewrite HS, G1 in E3. exact E3.
    - destruct (HM 0 HM0) as (_ & _ & E3). fold D M in E3. rewrite <- G1, <- E3.
      transitivity (- (mv M (Dxf D) f2 0 - mv M (Dyf D) f1 0))%C; [rewrite HS; ring|ring]. }
  split; [split|].
  - intros (f1 & f2 & HM). exact (Third f1 f2 HM).
  - intro E. set (f1 := fun k => (- g * (RtoC 1 - cis (- ky)) * W k)%C). set (f2 := fun k => (g * (RtoC 1 - cis (- kx)) * W k)%C).
    exists f1, f2. assert (HS := Second f1 f2 (fun k _ => conj eq_refl eq_refl)).
    unfold source_free_wave. rewrite EP, EM, Eo, EL. fold D M.
    assert (Hmm : forall z, RtoC (omega * z) = (RtoC omega * RtoC z)%C) by (intro; apply RtoC_mult).
    unfold m', g, m, inertia in *. destruct P; intros k Hk; destruct (pix_bound _ _ _ Hk) as (i & j & Hi & Hj & Ek); destruct (WD i j Hi Hj) as (D1 & D2 & _ & _); rewrite <- Ek in D1, D2;
      rewrite D1, D2; (split; [|split]).
    + unfold f1. rewrite Hmm. field. repeat split; assumption.
    + unfold f2. rewrite Hmm. field. repeat split; assumption.
    + rewrite (HS k Hk). apply (Key (W k) (WN k)). exact E.
    + unfold f1. rewrite Hmm. replace (RtoC (-1)) with (- RtoC 1)%C by (rewrite <- RtoC_opp; reflexivity). field. repeat split; assumption.
    + unfold f2. rewrite Hmm. replace (RtoC (-1)) with (- RtoC 1)%C by (rewrite <- RtoC_opp; reflexivity). field. repeat split; assumption.
    + transitivity (- (mv M (Dxf D) f2 k - mv M (Dyf D) f1 k))%C; [ring|]. rewrite (HS k Hk). rewrite <- (proj2 (Key (W k) (WN k)) E), <- G1. ring.
  - intros f1 f2 k HM Hk. destruct (First f1 f2 HM k Hk) as (E1 & E2). assert (E3 := Third f1 f2 HM).
    rewrite (w_norm eps a b g W f1 f2 k E1 E2). fold kx ky. rewrite WG.
    assert (E4 : (4 * sin (kx / 2) ^ 2 + 4 * sin (ky / 2) ^ 2 = dl ^ 2 * Lam)%R) by (unfold Lam, lattice; field; lra). rewrite E4, E3, Hm.
    assert (HR : (0 < match s_pol s with PolEz => sqrt e0 / ETA_0 | PolHz => ETA_0 / sqrt e0 end)%R).
    { assert (X1 := sqrt_lt_R0 _ H0). assert (X2 : (0 < ETA_0)%R) by (rewrite ETA_0_C; apply Rmult_lt_0_compat; [exact HMU|exact C_0_pos]).
      destruct (s_pol s); apply Rmult_lt_0_compat; try apply Rinv_0_lt_compat; assumption. }
    assert (HR2 : (match s_pol s with PolEz => sqrt e0 / ETA_0 | PolHz => ETA_0 / sqrt e0 end ^ 2 = m' / m)%R).
    { assert (X1 := sqrt_lt_R0 _ H0). assert (X2 : (0 < ETA_0)%R) by (rewrite ETA_0_C; apply Rmult_lt_0_compat; [exact HMU|exact C_0_pos]).
      assert (X3 : (sqrt e0 ^ 2 = e0)%R) by (apply pow2_sqrt; lra).
      assert (X4 : (ETA_0 ^ 2 = MU_0 / EPSILON_0)%R) by (apply pow2_sqrt, Rlt_le, Rmult_lt_0_compat; [|apply Rinv_0_lt_compat]; assumption).
      rewrite EP. unfold m', m, inertia. destruct P; unfold Rdiv; rewrite Rpow_mult_distr, pow_inv, X3, X4; revert HE HMU; generalize EPSILON_0 MU_0; intros; field; repeat split; lra. }
    set (r := match s_pol s with PolEz => (sqrt e0 / ETA_0)%R | PolHz => (ETA_0 / sqrt e0)%R end) in *.
    rewrite <- (sqrt_pow2 (r * Cmod (W k))) by (apply Rmult_le_pos; [lra|apply Cmod_ge_0]). f_equal.
    rewrite (Rpow_mult_distr r), HR2. field. repeat split; lra.
Qed.

(** the four Poynting products, [h] = e^{ix} to the next pixel *)
Lemma poynt (q x : R) (F : C) : (0 < q)%R ->
  let n := ((F + cis x * F) / RtoC 2)%C in let b := ((F + cis (- x) * F) / RtoC 2)%C in
  let v := (RtoC 1 / (Ci * RtoC q) * (RtoC 1 - cis (- x)) * F)%C in
  Re (n * Cconj v)%C = (sin x * cos x / q * Cmod F ^ 2)%R /\ Re (b * Cconj v)%C = (sin x / q * Cmod F ^ 2)%R.
Proof.
  intros Hq n b v.
  assert (Ev : v = (- Ci * RtoC (/ q) * (RtoC 1 - cis (- x)) * F)%C).
  { unfold v. rewrite RtoC_inv by lra. assert (C1 : RtoC q <> RtoC 0) by (apply RtoC_neq0; lra). assert (C4 := Ci_neq0).
    assert (C5 : (Ci * Ci = - RtoC 1)%C) by (unfold Ci; apply injective_projections; cbn; ring).
    transitivity (- (Ci * Ci) / (Ci * RtoC q) * (RtoC 1 - cis (- x)) * F)%C; [rewrite C5|]; field; split; assumption. }
  assert (T : forall z : C, (z / RtoC 2)%C = (z * RtoC (/ 2))%C) by (intro; rewrite RtoC_inv by lra; reflexivity).
  rewrite Ev, Cmod2. unfold n, b. rewrite !T. clear. assert (Q := sin2_cos2 x). unfold Rsqr in Q.
  assert (Q' : (cos x * cos x = 1 - sin x * sin x)%R) by lra.
  destruct F as [f g]. unfold Cnorm2, Ci, cis, RtoC, Re, Im, Cconj, Rdiv. cbn [fst snd Cmult Cplus Copp Cminus]. rewrite !cos_neg, !sin_neg. generalize (/ q)%R. intro r.
  split; field.
Qed.

(** Through plane waves the probe reads the power that crosses each interface times the cosine of the
    phase per pixel: exactly nothing at four pixels per period, and the wrong sign below. *)
Theorem C109_probe :
  forall e omega eps dl p L0 e0 s a b amp J av s1 f1 f2 F,
  solver_exact e -> uniform_sim omega eps dl p L0 e0 s -> one_field s -> a < nd_nx eps -> b < nd_ny eps ->
  let Nx := nd_nx eps in let Ny := nd_ny eps in let kx := phase Nx a in let ky := phase Ny b in
  let P := if String.eqb p "Ez" then PolEz else PolHz in let m := inertia P L0 e0 in
  nd_size J = nd_size eps -> (forall k, k < nd_size eps -> nd_buf J k = (amp * plane_wave kx ky Ny k)%C) ->
  solve_fields e false av (upd_src J s) = (s1, Ok (f1, f2, F)) ->
  (forall i j, i < Nx -> j < Ny ->
     interface_x P Nx Ny F f2 i j = (- sin kx / (2 * dl * (omega * m)) * Cmod (F O) ^ 2)%R /\
     interface_y P Ny F f1 i j = (- sin ky / (2 * dl * (omega * m)) * Cmod (F O) ^ 2)%R) /\
  (forall c0 c1 w : Z, (0 <= w)%Z -> (0 <= c0)%Z -> (c0 + 1 < Z.of_nat Nx)%Z -> (0 <= c1 - (w + 1) / 2)%Z -> (c1 - (w + 1) / 2 + w < Z.of_nat Ny)%Z ->
     flux_probe "x" (c0, c1) w false s1 = Ok (cos kx * (IZR w * dl * interface_x P Nx Ny F f2 O O))%R) /\
  (forall c0 c1 w : Z, (0 <= w)%Z -> (0 <= c1)%Z -> (c1 + 1 < Z.of_nat Ny)%Z -> (0 <= c0 - (w + 1) / 2)%Z -> (c0 - (w + 1) / 2 + w < Z.of_nat Nx)%Z ->
     flux_probe "y" (c0, c1) w false s1 = Ok (cos ky * (IZR w * dl * interface_y P Ny F f1 O O))%R).
Proof.
  intros e omega eps dl p L0 e0 s a b amp J av s1 f1 f2 F HE HU HO Ha Hb Nx Ny kx ky P m HJ HJv HS.
  destruct (C109_response e omega eps dl p L0 e0 s a b amp J av s1 f1 f2 F HE HU HO Ha Hb HJ HJv HS) as (_ & HR). fold Nx Ny kx ky in HR. fold P in HR. fold m in HR.
  assert (HI : (0 < m)%R) by exact (w_inertia _ _ _ _ _ _ _ HU). assert (HF := w_facts _ _ _ _ _ _ _ HU).
  destruct HF as (Hw & HL & EM & ENx & ENy & Eo & EL & Ee & Edl & EP & _). fold Nx Ny P in ENx, ENy, EP.
  assert (HU' := HU). destruct HU' as (HSim & Hd & H2 & H3 & H0 & Hu). fold Nx Ny in H2, H3.
  set (c := (amp * Ci * RtoC (omega * m / (medium omega L0 e0 - lattice kx ky dl)))%C) in HR.
  set (q := (dl * (omega * m))%R). assert (Hq : (0 < q)%R) by (unfold q; repeat apply Rmult_lt_0_compat; assumption).
  assert (HK : forall i j, i < Nx -> j < Ny -> pix Ny i j < nd_size eps) by (intros; apply flat_lt; assumption).
  assert (Hcis : forall t, (cos t, - sin t)%R = cis (- t)) by (intro; unfold cis; rewrite cos_neg, sin_neg; reflexivity).
  assert (HC1 : RtoC dl <> RtoC 0) by (apply RtoC_neq0; lra). assert (HC2 : RtoC (omega * m) <> RtoC 0) by (apply RtoC_neq0, Rgt_not_eq, Rmult_lt_0_compat; assumption). assert (HC4 := Ci_neq0).
  set (sg := (if String.eqb p "Ez" then 1 else -1)%R) in HR.
  (* neighbours *)
  assert (Wp : forall i j, i < Nx -> j < Ny -> F (pix Ny i j) = (c * (wave Nx a i * wave Ny b j))%C).
  { intros i j Hi Hj. destruct (HR _ (HK i j Hi Hj)) as (-> & _). f_equal. unfold kx, ky. rewrite <- plane_is. apply plane_pix; assumption. }
  assert (Mod : forall i j, i < Nx -> j < Ny -> (Cmod (F (pix Ny i j)) ^ 2 = Cmod (F O) ^ 2)%R).
  { intros i j Hi Hj. assert (HZ : 0 < nd_size eps) by (apply (HK 0 0); lia). destruct (HR _ (HK i j Hi Hj)) as (-> & _). destruct (HR _ HZ) as (-> & _).
    rewrite !Cmod_mult, !Rpow_mult_distr. f_equal. rewrite !Cmod2. unfold plane_wave. cbv zeta. transitivity 1%R; [|symmetry]; apply Cnorm2_cis. }
  assert (V2 : forall i j, i < Nx -> j < Ny -> f2 (pix Ny i j) = (RtoC sg * (RtoC 1 / (Ci * RtoC q) * (RtoC 1 - cis (- kx)) * F (pix Ny i j)))%C).
  { intros i j Hi Hj. destruct (HR _ (HK i j Hi Hj)) as (_ & _ & -> & _). rewrite Hcis. unfold q. rewrite (RtoC_mult dl). field. repeat split; assumption. }
  assert (V1 : forall i j, i < Nx -> j < Ny -> f1 (pix Ny i j) = (RtoC (- sg) * (RtoC 1 / (Ci * RtoC q) * (RtoC 1 - cis (- ky)) * F (pix Ny i j)))%C).
  { intros i j Hi Hj. destruct (HR _ (HK i j Hi Hj)) as (_ & -> & _). rewrite Hcis. unfold q. rewrite (RtoC_mult dl), RtoC_opp. field. repeat split; assumption. }
  assert (FXp : forall i j, i < Nx -> j < Ny -> F (pix Ny (prev Nx i) j) = (cis (- kx) * F (pix Ny i j))%C).
  { intros i j Hi Hj. rewrite !Wp by (try apply prev_lt; assumption). rewrite wave_prev by assumption. fold (phase Nx a). fold kx. ring. }
  assert (FYp : forall i j, i < Nx -> j < Ny -> F (pix Ny i (prev Ny j)) = (cis (- ky) * F (pix Ny i j))%C).
  { intros i j Hi Hj. rewrite !Wp by (try apply prev_lt; assumption). rewrite wave_prev by assumption. fold (phase Ny b). fold ky. ring. }
  assert (FXn : forall i j, S i < Nx -> j < Ny -> F (pix Ny (S i) j) = (cis kx * F (pix Ny i j))%C).
  { intros i j Hi Hj. rewrite !Wp by lia. replace (S i) with (next Nx i) by (unfold next; destruct (Nat.eqb_spec (S i) Nx); [lia|reflexivity]).
    rewrite wave_next by lia. fold (phase Nx a). fold kx. ring. }
  assert (FYn : forall i j, i < Nx -> S j < Ny -> F (pix Ny i (S j)) = (cis ky * F (pix Ny i j))%C).
  { intros i j Hi Hj. rewrite !Wp by lia. replace (S j) with (next Ny j) by (unfold next; destruct (Nat.eqb_spec (S j) Ny); [lia|reflexivity]).
    rewrite wave_next by lia. fold (phase Ny b). fold ky. ring. }
  assert (RC : forall (u : R) (x y : C), Re (x * Cconj (RtoC u * y))%C = (u * Re (x * Cconj y)%C)%R /\ Re (RtoC u * y * Cconj x)%C = (u * Re (x * Cconj y)%C)%R).
  { intros u [x1 x2] [y1 y2]. unfold Re, Cconj, RtoC. cbn [fst snd Cmult]. split; ring. }
  assert (RM : forall x y : C, Re (RtoC 0 * Cconj y - x)%C = (- Re x)%R /\ Re (x - RtoC 0 * Cconj y)%C = Re x /\ Re (RtoC 0 * Cconj y - x * Cconj (RtoC 0))%C = 0%R).
  { intros [x1 x2] [y1 y2]. unfold Re, Cconj, RtoC. cbn [fst snd Cmult Cminus Cplus Copp]. repeat split; ring. }
  assert (ESg : sg = match P with PolEz => 1%R | PolHz => (-1)%R end) by (unfold sg, P; destruct (String.eqb p "Ez"); reflexivity).
  assert (IX : forall i j, i < Nx -> j < Ny -> interface_x P Nx Ny F f2 i j = (- sin kx / (2 * dl * (omega * m)) * Cmod (F O) ^ 2)%R).
  { intros i j Hi Hj. rewrite <- (Mod i j Hi Hj). assert (PB := proj2 (poynt q kx (F (pix Ny i j)) Hq)). cbv zeta in PB.
    unfold interface_x, poynting_vector. rewrite FXp, V2 by assumption. rewrite ESg. cbv zeta. destruct P; cbn [fst].
    - rewrite (proj1 (RM _ _)), (proj1 (RC _ _ _)), PB. unfold q. field. repeat split; lra.
    - rewrite (proj1 (proj2 (RM _ _))), (proj2 (RC _ _ _)), PB. unfold q. field. repeat split; lra. }
  assert (IY : forall i j, i < Nx -> j < Ny -> interface_y P Ny F f1 i j = (- sin ky / (2 * dl * (omega * m)) * Cmod (F O) ^ 2)%R).
  { intros i j Hi Hj. rewrite <- (Mod i j Hi Hj). assert (PB := proj2 (poynt q ky (F (pix Ny i j)) Hq)). cbv zeta in PB.
    unfold interface_y, poynting_vector. rewrite FYp, V1 by assumption. rewrite ESg. cbv zeta. destruct P; cbn [snd].
    - rewrite (proj1 (proj2 (RM _ _))), (proj1 (RC _ _ _)), PB. unfold q. field. repeat split; lra.
    - rewrite (proj1 (RM _ _)), (proj2 (RC _ _ _)), PB. unfold q. field. repeat split; lra. }
  assert (DX : forall i j, S i < Nx -> j < Ny -> density_x P Ny F f2 i j = (cos kx * (- sin kx / (2 * dl * (omega * m)) * Cmod (F O) ^ 2))%R).
  { intros i j Hi Hj. rewrite <- (Mod i j) by lia. assert (PB := proj1 (poynt q kx (F (pix Ny i j)) Hq)). cbv zeta in PB.
    unfold density_x, poynting_vector. rewrite FXn, V2 by lia. rewrite ESg. cbv zeta. destruct P; cbn [fst].
    - rewrite (proj1 (RM _ _)), (proj1 (RC _ _ _)), PB. unfold q. field. repeat split; lra.
    - rewrite (proj1 (proj2 (RM _ _))), (proj2 (RC _ _ _)), PB. unfold q. field. repeat split; lra. }
  assert (DY : forall i j, i < Nx -> S j < Ny -> density_y P Ny F f1 i j = (cos ky * (- sin ky / (2 * dl * (omega * m)) * Cmod (F O) ^ 2))%R).
  { intros i j Hi Hj. rewrite <- (Mod i j) by lia. assert (PB := proj1 (poynt q ky (F (pix Ny i j)) Hq)). cbv zeta in PB.
    unfold density_y, poynting_vector. rewrite FYn, V1 by lia. rewrite ESg. cbv zeta. destruct P; cbn [snd].
    - rewrite (proj1 (proj2 (RM _ _))), (proj1 (RC _ _ _)), PB. unfold q. field. repeat split; lra.
    - rewrite (proj1 (RM _ _)), (proj2 (RC _ _ _)), PB. unfold q. field. repeat split; lra. }
  assert (HS1 : s1 = upd_fields (store3 (s_pol s) (s_fields s) (f1, f2, F)) (upd_src J s)).
  { revert HS. unfold solve_fields. destruct (negb (nd_size (s_src (upd_src J s)) =? s_M (upd_src J s))); [discriminate|].
    destruct (solver_direct e (s_M (upd_src J s)) (s_A (upd_src J s)) (rhs (upd_src J s)) (DEFAULT_SOLVER e)) as [X|]; [|discriminate].
    cbv zeta. destruct (derived_fields (upd_src J s) (s_epsC (upd_src J s)) av X) as [u v]. intro E. injection E as <- <- <- <-. reflexivity. }
  assert (Z1 : probe_fields false s1 (pol_comp (s_pol s1)) = Some F) by (rewrite HS1; cbn [probe_fields s_fields s_pol upd_fields upd_src]; rewrite store3_pol; reflexivity).
  assert (Z2 : probe_fields false s1 (match s_pol s1 with PolEz => Hx | PolHz => Ex end) = Some f1) by (rewrite HS1; cbn [probe_fields s_fields s_pol upd_fields upd_src]; destruct (s_pol s); reflexivity).
  assert (Z3 : probe_fields false s1 (match s_pol s1 with PolEz => Hy | PolHz => Ey end) = Some f2) by (rewrite HS1; cbn [probe_fields s_fields s_pol upd_fields upd_src]; destruct (s_pol s); reflexivity).
  assert (Z4 : s_Nx s1 = Nx /\ s_Ny s1 = Ny /\ s_pol s1 = P /\ s_dl s1 = dl) by (rewrite HS1; cbn [s_Nx s_Ny s_pol s_dl upd_fields upd_src]; repeat split; assumption).
  destruct Z4 as (Y1 & Y2 & Y3 & Y4).
  assert (HRS : forall n (f : nat -> R) x, (forall t, t < n -> f t = x) -> rsum n f = (INR n * x)%R).
  { intros n f x. induction n; intro Hf; [cbn; ring|]. rewrite S_INR. cbn [rsum]. rewrite IHn, Hf by (intros; try apply Hf; lia). ring. }
  split; [intros i j Hi Hj; split; [apply IX|apply IY]; assumption|].
  rewrite (IX 0 0), (IY 0 0) by lia. split; intros c0 c1 w B0 B1 B2 B3 B4; destruct (C58_exactly_width_pixels_partial s1 false F f1 f2 c0 c1 w Z1 Z2 Z3 B0) as (G1 & G2); rewrite Y1, Y2, Y3, Y4 in *.
  - rewrite (G1 B1 B2 B3 B4). erewrite HRS. 2:{ intros t Ht. apply DX; lia. } rewrite INR_IZR_INZ, Z2Nat.id by exact B0. f_equal. ring.
  - rewrite (G2 B1 B2 B3 B4). erewrite HRS. 2:{ intros t Ht. apply DY; lia. } rewrite INR_IZR_INZ, Z2Nat.id by exact B0. f_equal. ring.
Qed.

Lemma sin_bounds y : (0 < y < PI / 2)%R -> (sin y < y /\ y * cos y < sin y)%R.
Proof.
  intros [H1 H2]. split; [apply sin_lt_x; exact H1|].
  destruct (MVT_cor2 (fun t => sin t - t * cos t)%R (fun t => t * sin t)%R 0 y H1) as (c & E & Hc).
  { intros c _. apply is_derive_Reals. auto_derive; [trivial|]. ring. }
  rewrite sin_0, Rmult_0_l in E. assert (S := sin_gt_0 c ltac:(lra) ltac:(lra)).
  assert (0 < c * sin c * (y - 0))%R by (repeat apply Rmult_lt_0_compat; lra). lra.
Qed.

(** Along an axis exactly one wavelength fits a frequency; it is shorter than in the medium, and by no
    more than the factor sqrt(1 - (pi/N)^2) at N pixels per wavelength. *)
Theorem C109_dispersion :
  forall omega L0 e0 dl, (0 < omega)%R -> (0 < L0)%R -> (0 < e0)%R -> (0 < dl)%R ->
  let lambda := (2 * PI * C_0 / (omega * L0 * sqrt e0))%R in (PI * dl < lambda)%R ->
  exists on_grid, (lambda * sqrt (1 - (PI * dl / lambda) ^ 2) < on_grid < lambda)%R /\ (2 * dl < on_grid)%R /\
  forall l, (2 * dl < l)%R -> (lattice (2 * PI * dl / l) 0 dl = medium omega L0 e0 <-> l = on_grid) /\ lattice 0 (2 * PI * dl / l) dl = lattice (2 * PI * dl / l) 0 dl.
Proof.
  intros omega L0 e0 dl Hw HL He Hd lambda Hl. assert (HP := PI_RGT_0). assert (HC := C_0_pos). assert (HS := sqrt_lt_R0 _ He).
  assert (HB : (0 < omega * L0 * sqrt e0)%R) by (repeat apply Rmult_lt_0_compat; assumption).
  assert (H0 : (0 < lambda)%R) by (apply Rmult_lt_0_compat; [apply Rmult_lt_0_compat; [lra|exact HC]|apply Rinv_0_lt_compat; exact HB]).
  set (x := (PI * dl / lambda)%R).
  assert (Hx : (0 < x < 1)%R).
  { split; [apply Rmult_lt_0_compat; [apply Rmult_lt_0_compat|apply Rinv_0_lt_compat]; assumption|]. unfold x. apply Rmult_lt_reg_r with lambda; [exact H0|]. unfold Rdiv. rewrite Rmult_assoc, Rinv_l, Rmult_1_r, Rmult_1_l by lra. exact Hl. }
  assert (EM : (medium omega L0 e0 * dl ^ 2 = 4 * x ^ 2)%R).
  { assert (E : (lambda * (omega * L0 * sqrt e0) = 2 * PI * C_0)%R) by (unfold lambda; field; repeat split; lra).
    assert (E' : (PI = lambda * (omega * L0 * sqrt e0) / (2 * C_0))%R) by (rewrite E; field; lra).
    unfold x, medium. rewrite E'. assert (E2 : (sqrt e0 ^ 2 = e0)%R) by (apply pow2_sqrt; lra). rewrite <- E2 at 1. field. split; lra. }
  set (y := asin x). assert (SY : sin y = x) by (apply sin_asin; lra).
  assert (CY : cos y = sqrt (1 - x ^ 2)) by (unfold y; rewrite cos_asin by lra; f_equal; unfold Rsqr; ring).
  assert (HY : (0 < y < PI / 2)%R).
  { destruct (asin_bound_lt x ltac:(lra)) as [B1 B2]. fold y in B1, B2. split; [|exact B2]. destruct (Rlt_dec 0 y) as [|Hn]; [assumption|exfalso].
    assert (sin y <= 0)%R; [|lra]. destruct (Req_dec y 0) as [->|]; [rewrite sin_0; lra|]. apply Rlt_le, sin_lt_0_var; lra. }
  destruct (sin_bounds y HY) as [B1 B2]. rewrite SY in B1, B2. rewrite CY in B2.
  assert (EPd : (PI * dl = x * lambda)%R) by (unfold x; field; lra).
  exists (PI * dl / y)%R. split; [split|split].
  - apply Rmult_lt_reg_r with y; [lra|]. unfold Rdiv. rewrite (Rmult_assoc (PI * dl)), Rinv_l, Rmult_1_r by lra. fold (PI * dl / lambda)%R. fold x. rewrite EPd. set (r := sqrt (1 - x ^ 2)) in *.
    replace (lambda * r * y)%R with (lambda * (y * r))%R by ring. rewrite (Rmult_comm x). apply Rmult_lt_compat_l; assumption.
  - apply Rmult_lt_reg_r with y; [lra|]. unfold Rdiv. rewrite (Rmult_assoc (PI * dl)), Rinv_l, Rmult_1_r by lra. rewrite EPd, (Rmult_comm x). apply Rmult_lt_compat_l; lra.
  - apply Rmult_lt_reg_r with y; [lra|]. unfold Rdiv. rewrite (Rmult_assoc (PI * dl)), Rinv_l, Rmult_1_r by lra. replace (2 * dl * y)%R with ((2 * y) * dl)%R by ring. apply Rmult_lt_compat_r; lra.
  - intros l Hll.
    assert (HZ : (sin (0 / 2) = 0)%R) by (unfold Rdiv; rewrite Rmult_0_l; apply sin_0).
    split; [|unfold lattice; rewrite HZ; field; lra].
    set (z := (2 * PI * dl / l / 2)%R). assert (Ez : (z * l = PI * dl)%R) by (unfold z; field; lra).
    assert (Hz : (0 < z < PI / 2)%R).
    { split.
      - apply Rmult_lt_reg_r with l; [lra|]. rewrite Ez, Rmult_0_l. apply Rmult_lt_0_compat; assumption.
      - apply Rmult_lt_reg_r with l; [lra|]. rewrite Ez. replace (PI / 2 * l)%R with (PI * (l / 2))%R by field. apply Rmult_lt_compat_l; lra. }
    assert (SZ := sin_gt_0 z ltac:(lra) ltac:(lra)).
    transitivity (sin z = x).
    + unfold lattice. fold z. rewrite HZ. split; intro E.
      * assert (E1 : (sin z ^ 2 = x ^ 2)%R).
        { assert (4 * sin z ^ 2 = 4 * x ^ 2)%R; [|lra]. rewrite <- EM, <- E. field. lra. }
        apply Rsqr_inj; [lra|lra|]. unfold Rsqr. nra.
      * apply Rmult_eq_reg_r with (dl ^ 2)%R; [|apply pow_nonzero; lra]. rewrite EM, E. field. lra.
    + split; intro E.
      * assert (z = y) by (apply sin_inj; lra). apply Rmult_eq_reg_r with y; [|lra]. unfold Rdiv. rewrite (Rmult_assoc (PI * dl)), Rinv_l, Rmult_1_r by lra. rewrite <- Ez, H. ring.
      * assert (z = y); [|congruence]. apply Rmult_eq_reg_r with l; [|lra]. rewrite Ez, E. field. lra.
Qed.

Lemma sqrt_between a b x : (0 <= a)%R -> (a * a < x < b * b)%R -> (0 < b)%R -> (a < sqrt x < b)%R.
Proof.
  intros Ha [H1 H2] Hb. split.
  - rewrite <- (sqrt_square a Ha). apply sqrt_lt_1_alt. split; [nra|exact H1].
  - rewrite <- (sqrt_square b) by lra. apply sqrt_lt_1_alt. split; [nra|exact H2].
Qed.
(** The constants: the speed of light and the impedance of the vacuum (exact SI value 299792458 m/s;
    376.730313... ohm). *)
Theorem C109_constants :
  (EPSILON_0 * MU_0 * C_0 ^ 2 = 1)%R /\ ETA_0 = (MU_0 * C_0)%R /\
  (299792458 + 10 / 100 < C_0 < 299792458 + 15 / 100)%R /\ (3767303131 / 10 ^ 7 < ETA_0 < 3767303133 / 10 ^ 7)%R.
Proof.
  split; [|split; [exact ETA_0_C|split]].
  - rewrite <- C_0_sq. ring.
  - apply sqrt_between; unfold EPSILON_0, MU_0; lra.
  - apply sqrt_between; unfold EPSILON_0, MU_0; lra.
Qed.

Lemma uniform_ex omega : (0 < omega)%R -> exists s, uniform_sim omega (mkNd 8 3 (fun _ => 1%R)) 1 "Ez" 1 1 s.
Proof.
  intro Hw. assert (Hs : exists s, Simulation omega (mkNd 8 3 (fun _ => 1%R)) 1 (Some [0; 0]%Z) "Ez" 1 = Ok s).
  { unfold Simulation, check_inputs. destruct (Rlt_dec 0 1); [|lra]. destruct (Rlt_dec 0 omega); [|contradiction]. eexists. reflexivity. }
  destruct Hs as [s Hs]. exists s. split; [exact Hs|]. repeat split; cbn [nd_nx nd_ny nd_buf]; try lia; try lra.
Qed.
(** On a grid of 8 by 3 pixels: a frequency with one field and a plane-wave source that is solved, a
    frequency with a free wave of 8 pixels, and one that meets the hypothesis of the dispersion. *)
Example C109_met : let eps := mkNd 8 3 (fun _ => 1%R) in
  (exists omega s s1 f1 f2 F, uniform_sim omega eps 1 "Ez" 1 1 s /\ one_field s /\ solver_exact ex_env /\
     let J := mkNd 8 3 (fun k => (RtoC 5 * plane_wave (phase 8 1) (phase 3 2) 3 k)%C) in
     solve_fields ex_env false true (upd_src J s) = (s1, Ok (f1, f2, F))) /\
  (exists omega s f1 f2, uniform_sim omega eps 1 "Ez" 1 1 s /\ source_free_wave s 1 f1 f2 (plane_wave (phase 8 1) (phase 3 0) 3)) /\
  (PI * 1 < 2 * PI * C_0 / (C_0 * 1 * sqrt 1))%R.
Proof.
  intro eps. assert (HC := C_0_pos). assert (HP := PI_RGT_0). split; [|split].
  - destruct (uniform_ex (3 * C_0)) as [s HU]; [lra|]. exists (3 * C_0)%R, s.
    assert (HO : one_field s).
    { destruct HU as (HS & Hd & H2 & H3 & H0 & Hu). apply (proj2 (C106_uniform_medium _ _ _ _ _ _ _ HS Hd H2 H3 H0 Hu)).
      intros a b _ _ E. assert (Q := C_0_sq). cbn [nd_nx nd_ny] in E.
      set (u := (PI * INR a / INR 8)%R) in E. set (v := (PI * INR b / INR 3)%R) in E.
      assert (B1 := SIN_bound u). assert (B2 := SIN_bound v).
      assert (X1 : (sin u ^ 2 <= 1)%R) by nra. assert (X2 : (sin v ^ 2 <= 1)%R) by nra.
      assert (E2 : (EPSILON_0 * MU_0 * 1 * (1 * 1) ^ 2 * (3 * C_0) ^ 2 = 9)%R) by (transitivity (9 * (C_0 * C_0 * (EPSILON_0 * MU_0)))%R; [ring|rewrite Q; ring]).
      rewrite E2 in E. lra. }
    set (J := mkNd 8 3 (fun k => (RtoC 5 * plane_wave (phase 8 1) (phase 3 2) 3 k)%C)).
    destruct (w_facts _ _ _ _ _ _ _ HU) as (_ & _ & EM & _).
    destruct (solve_fields_lin ex_env true (upd_src J s)) as [X [HX HE]].
    { cbn [s_src upd_src]. change (s_M (upd_src J s)) with (s_M s). rewrite EM. reflexivity. }
    cbv zeta in HE. destruct (derived_fields (upd_src J s) (s_epsC (upd_src J s)) true X) as [u v].
    do 4 eexists. split; [exact HU|]. split; [exact HO|]. split; [exact ex_env_exact|]. cbv zeta. fold J. exact HE.
  - assert (H8 : (0 < sin (phase 8 1 / 2))%R).
    { apply sin_gt_0; unfold phase; cbn [INR]; lra. }
    assert (Hw : (0 < C_0 * (2 * sin (phase 8 1 / 2)))%R) by (apply Rmult_lt_0_compat; lra).
    destruct (uniform_ex _ Hw) as [s HU]. eexists; exists s.
    destruct (C109_free_waves _ _ _ _ _ _ _ 1 0 HU ltac:(cbn; lia) ltac:(cbn; lia)) as [[_ HB] _].
    destruct HB as (f1 & f2 & HF).
    + cbn [nd_nx nd_ny]. unfold lattice, medium. replace (phase 3 0) with 0%R by (unfold phase; cbn [INR]; lra).
      replace (0 / 2)%R with 0%R by lra. rewrite sin_0. revert HC. generalize C_0. intros c Hc. field. lra.
    + exists f1, f2. split; [exact HU|exact HF].
  - rewrite sqrt_1. replace (2 * PI * C_0 / (C_0 * 1 * 1))%R with (2 * PI)%R by (field; lra). lra.
Qed.
