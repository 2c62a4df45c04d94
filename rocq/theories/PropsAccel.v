(** C123: the accelerator example; translation along an axis without PML (C79). *)
From Coq Require Import Reals Lra Lia List ZArith Arith Bool String.
From Coquelicot Require Import Coquelicot.
From Verif Require Import Base Linear MCore MSim MFilter MOpt MMode MStruct MNotebook MAccel Spec PCore PSim PSym PGrad PropsCore PropsSolve PropsLin PropsSym PropsSymOpt PSolv PEx PropsSolv PropsStruct PropsNotebook.
Import ListNotations.
Local Open Scope string_scope.

(* ------------------------------------------------------------------ *)
(** ** Translation along an axis without PML *)
Lemma pax_sh s omega L0 range d N Np a u u' i : Np = 0%nat \/ (a mod N = 0)%nat -> (i < N)%nat -> (forall c, (c < N)%nat -> u' (sh N a c) = u c) ->
  pax s omega L0 range d N Np u' (sh N a i) = pax s omega L0 range d N Np u i.
Proof.
  intros [->|Ha] Hi H; [rewrite !pax_no_pml; apply ax_sh; assumption|].
  assert (E: forall c, (c < N)%nat -> sh N a c = c). { intros c Hc. unfold sh. rewrite Nat.add_mod, Ha, Nat.add_0_r, Nat.mod_mod by lia. apply Nat.mod_small, Hc. }
  rewrite (E i Hi). apply pax_ext; [exact Hi|]. intros c Hc. rewrite <- (E c Hc) at 1. apply H, Hc.
Qed.
(** The fields of a device that is moved along an axis without PML, around the periodic border,
    move with it, whatever the PML on the other axis. *)
Theorem C79_translation_beside_pml :
  forall e s1 s2, reachable e s1 -> reachable e s2 -> solver_exact e ->
  (0 < s_Nx s1)%nat -> (0 < s_Ny s1)%nat -> same_grid s1 s2 ->
  nonsingular (s_M s1) (s_A s1) ->
  forall da db src1 src2 av s1' s2' a1 b1 F1 a2 b2 F2,
  (fst (s_NPML s1) = 0%nat \/ (da mod s_Nx s1 = 0)%nat) -> (snd (s_NPML s1) = 0%nat \/ (db mod s_Ny s1 = 0)%nat) ->
  let shifted {T} := @moved_by T (s_Nx s1) (s_Ny s1) da db in
  shifted (nd_buf (s_eps s1)) (nd_buf (s_eps s2)) ->
  shifted (nd_buf src1) (nd_buf src2) ->
  solve_fields e false av (upd_src src1 s1) = (s1', Ok (a1, b1, F1)) ->
  solve_fields e false av (upd_src src2 s2) = (s2', Ok (a2, b2, F2)) ->
  shifted F1 F2 /\ shifted a1 a2 /\ shifted b1 b2.
Proof.
  intros e s1 s2 HR1 HR2 He HNx HNy HG HA da db src1 src2 av s1' s2' a1 b1 F1 a2 b2 F2 FX FY shifted Heps Hsrc H1 H2.
  destruct HG as (G1 & G2 & G3 & G4 & G5 & G6 & G7 & G8).
  destruct (consistent_A s1 (reachable_consistent e s1 HR1)) as [EA1 _].
  destruct (consistent_A s2 (reachable_consistent e s2 HR2)) as [EA2 _].
  assert (HP1 := reachable_physical e s1 HR1 HNx HNy). destruct (sd_neq0 s1 HP1) as [Hdx Hdy].
  rewrite G1, G2, G3, G4, G5, G6, G7, G8 in EA2.
  assert (HepsC: moved_by (s_Nx s1) (s_Ny s1) da db (s_epsC s1) (s_epsC s2)).
  { intros i j Hi Hj. unfold s_epsC, cvec. rewrite (Heps i j Hi Hj). reflexivity. }
  set (Nx := s_Nx s1) in *. set (Ny := s_Ny s1) in *.
  set (f := fun k => pix Ny (sh Nx da (k / Ny)) (sh Ny db (k mod Ny))).
  set (g := fun k => pix Ny (sh Nx (Nx - da mod Nx) (k / Ny)) (sh Ny (Ny - db mod Ny) (k mod Ny))).
  assert (HRen: renumber (Nx * Ny) (Nx * Ny) f g) by (apply renumber_sh; assumption).
  assert (Hf: forall i j, (j < Ny)%nat -> f (pix Ny i j) = pix Ny (sh Nx da i) (sh Ny db j)).
  { intros i j Hj. unfold f, pix. rewrite flat_div, flat_mod by assumption. reflexivity. }
  assert (Hg: forall i j, (i < Nx)%nat -> (j < Ny)%nat -> g (pix Ny (sh Nx da i) (sh Ny db j)) = pix Ny i j).
  { intros i j Hi Hj. rewrite <- Hf by assumption. apply HRen. apply flat_lt; assumption. }
  assert (HMv: moved (Nx * Ny) (Nx * Ny) f g (s_A s1) (s_A s2)).
  { intros x k Hk. assert (Hi := flat_div_lt _ _ _ Hk). assert (Hj := flat_mod_lt _ _ _ Hk).
    rewrite <- (flat_eta Ny k HNy). change (k / Ny * Ny + k mod Ny)%nat with (pix Ny (k / Ny) (k mod Ny)).
    set (i := (k / Ny)%nat) in *. set (j := (k mod Ny)%nat) in *.
    rewrite Hf, EA1, EA2 by assumption.
    rewrite !A_grid by (try apply sh_lt; assumption). 
    assert (Hgx: forall c r, (c < Nx)%nat -> (r < Ny)%nat -> Ax_g (s_L0 s1) Nx Ny (s_pol s1) true (s_epsC s2) (pix Ny (sh Nx da c) (sh Ny db r))
       = Ax_g (s_L0 s1) Nx Ny (s_pol s1) true (s_epsC s1) (pix Ny c r)).
    { intros. unfold Ax_g. destruct (s_pol s1); [reflexivity|]. rewrite (eps_dir_sh AxX true _ Nx Ny (s_epsC s1)) by assumption. reflexivity. }
    assert (Hgy: forall c r, (c < Nx)%nat -> (r < Ny)%nat -> Ay_g (s_L0 s1) Nx Ny (s_pol s1) true (s_epsC s2) (pix Ny (sh Nx da c) (sh Ny db r))
       = Ay_g (s_L0 s1) Nx Ny (s_pol s1) true (s_epsC s1) (pix Ny c r)).
    { intros. unfold Ay_g. destruct (s_pol s1); [reflexivity|]. rewrite (eps_dir_sh AxY true _ Nx Ny (s_epsC s1)) by assumption. reflexivity. }
    f_equal; [f_equal|].
    - apply pax_sh; [assumption|assumption|]. intros c Hc. rewrite Hgx by assumption. f_equal.
      apply pax_sh; [assumption|assumption|]. intros c' Hc'. rewrite Hg by assumption. reflexivity.
    - apply pax_sh; [assumption|assumption|]. intros c Hc. rewrite Hgy by assumption. f_equal.
      apply pax_sh; [assumption|assumption|]. intros c' Hc'. rewrite Hg by assumption. reflexivity.
    - rewrite Hg by assumption. f_equal. unfold Ad_g. destruct (s_pol s1); [|reflexivity]. do 2 f_equal. apply HepsC; assumption. }
  assert (HNx2: (0 < s_Nx s2)%nat) by (rewrite G5; exact HNx). assert (HNy2: (0 < s_Ny s2)%nat) by (rewrite G6; exact HNy).
  assert (HA2: nonsingular (s_M s2) (s_A s2)).
  { unfold s_M. rewrite G5, G6. exact (moved_nonsingular _ _ _ _ _ _ HRen HMv HA). }
  destruct (solve_grid e s1 av src1 _ _ _ _ HR1 He HNx HNy HA H1) as [S1 D1].
  destruct (solve_grid e s2 av src2 _ _ _ _ HR2 He HNx2 HNy2 HA2 H2) as [S2 D2].
  unfold s_M in S1, S2. rewrite G5, G6 in S2. rewrite G2 in S2. fold Nx Ny in S1, S2.
  assert (HF: moved_by Nx Ny da db F1 F2).
  { intros i j Hi Hj. change ((i + da) mod Nx)%nat with (sh Nx da i). change ((j + db) mod Ny)%nat with (sh Ny db j).
    rewrite <- Hf by assumption.
    apply (moved_solution _ _ f g (s_A s1) (s_A s2) F1 _ F2 _ HRen HMv HA) with (3 := S2) (2 := S1); [|apply flat_lt; assumption].
    intros k Hk. unfold f, sh. cbv beta. rewrite (Hsrc (k / Ny)%nat (k mod Ny)%nat (flat_div_lt _ _ _ Hk) (flat_mod_lt _ _ _ Hk)).
    unfold pix. rewrite flat_eta by assumption. reflexivity. }
  rewrite G5, G6 in D2. fold Nx Ny in D1, D2.
  split; [exact HF|]. split; intros i j Hi Hj;
    destruct (D1 i j Hi Hj) as [Da1 Db1]; destruct (D2 (sh Nx da i) (sh Ny db j) (sh_lt _ _ _ HNx) (sh_lt _ _ _ HNy)) as [Da2 Db2];
    change ((i + da) mod Nx)%nat with (sh Nx da i); change ((j + db) mod Ny)%nat with (sh Ny db j).
  - rewrite Da1, Da2. unfold fac1, spy, sdy. rewrite G1, G2, G3, G4, G5, G6, G7, G8. fold Nx Ny. f_equal.
    + destruct (s_pol s1); [reflexivity|]. rewrite (eps_dir_sh AxY av _ Nx Ny (s_epsC s1)) by assumption. reflexivity.
    + apply pax_sh; [assumption|assumption|]. intros c Hc. apply HF; assumption.
  - rewrite Db1, Db2. unfold fac2, spx, sdx. rewrite G1, G2, G3, G4, G5, G6, G7, G8. fold Nx Ny. f_equal.
    + destruct (s_pol s1); [reflexivity|]. rewrite (eps_dir_sh AxX av _ Nx Ny (s_epsC s1)) by assumption. reflexivity.
    + apply pax_sh; [assumption|assumption|]. intros c Hc. apply HF; assumption.
Qed.

(* ------------------------------------------------------------------ *)
(** ** The objective *)
(** what an electron gains in the channel, as a complex amplitude: the mean over the column nx
    of the field times the phase that the electron sees *)
Definition gain_amplitude (Ny nx : nat) (dl beta lambda0 : R) (Ey : vec) : C :=
  (csum Ny (fun j => Ey (pix Ny nx j) * electron_phase dl beta lambda0 j) / RtoC (INR Ny))%C.

Lemma accel_value Nx Ny nx dl beta lambda0 E0 Ey : (nx < Nx)%nat -> (0 < Ny)%nat ->
  pf_val (accel_J Nx Ny nx dl beta lambda0 E0) [Ey] = (Re (gain_amplitude Ny nx dl beta lambda0 Ey) / E0)%R.
Proof.
  intros Hx Hy. cbn [accel_J pf_val List.nth]. f_equal. rewrite <- Re_csum, csum_flat.
  rewrite (csum_single Nx nx); [|exact Hx|].
  - unfold gain_amplitude, Cdiv. rewrite <- csum_scal_r. f_equal. apply csum_ext. intros j Hj. unfold accel_eta.
    rewrite flat_div, flat_mod by assumption. rewrite Nat.eqb_refl. unfold pix.
    replace (RtoC (1 / INR Ny)) with (/ RtoC (INR Ny))%C; [ring|]. unfold Rdiv. rewrite Rmult_1_l, RtoC_inv; [reflexivity|]. apply not_0_INR. lia.
  - intros i Hi Hn. apply csum_0. intros j Hj. unfold accel_eta. rewrite flat_div by assumption.
    destruct (Nat.eqb_spec i nx); [contradiction|]. ring.
Qed.
Lemma Re_le_Cmod z : (Re z <= Cmod z)%R.
Proof. assert (H := Cmod_Re_le z). apply Rabs_le_between in H. lra. Qed.
Lemma Re_eq_Cmod z : Re z = Cmod z -> z = RtoC (Cmod z).
Proof.
  intro H. assert (Q := Cmod2 z). rewrite <- H in Q. unfold Cnorm2 in Q. apply C_ext; [exact H|]. cbn [Im RtoC snd].
  assert (Im z * Im z = 0)%R by nra. apply Rmult_integral in H0. unfold Im in *; destruct H0; assumption.
Qed.
Lemma phase_mod dl beta lambda0 j : Cmod (electron_phase dl beta lambda0 j) = 1%R.
Proof.
  unfold electron_phase. cbv zeta. set (t := (2 * PI * dl * INR j / beta / lambda0)%R).
  assert (Q := Cmod2 (cos t, sin t)). unfold Cnorm2, Re, Im in Q. cbn [fst snd] in Q. assert (S := sin2_cos2 t). unfold Rsqr in S.
  assert (0 <= Cmod (cos t, sin t))%R by apply Cmod_ge_0. nra.
Qed.

Lemma gain_bound :
  forall Nx Ny nx dl beta lambda0 E0 Ey, (nx < Nx)%nat -> (0 < Ny)%nat -> (0 < E0)%R ->
  let J := pf_val (accel_J Nx Ny nx dl beta lambda0 E0) [Ey] in
  (Rabs J <= mean_abs Ny nx Ey / E0)%R /\
  (J = (mean_abs Ny nx Ey / E0)%R <-> forall j, (j < Ny)%nat -> (Ey (pix Ny nx j) * electron_phase dl beta lambda0 j)%C = RtoC (Cmod (Ey (pix Ny nx j)))).
Proof.
  intros Nx Ny nx dl beta l0 E0 Ey Hx Hy H0 J.
  assert (HN: (0 < INR Ny)%R) by (apply lt_0_INR; lia).
  set (z := fun j => (Ey (pix Ny nx j) * electron_phase dl beta l0 j)%C).
  assert (HM: forall j, Cmod (z j) = Cmod (Ey (pix Ny nx j))) by (intro j; unfold z; rewrite Cmod_mult, phase_mod; ring).
  assert (EJ: J = (rsum Ny (fun j => Re (z j)) / INR Ny / E0)%R).
  { unfold J. rewrite accel_value by assumption. f_equal. unfold gain_amplitude, Cdiv. fold z. rewrite <- RtoC_inv by lra. autorewrite with reim. cbn [Re Im RtoC fst snd]. rewrite Re_csum. unfold Rdiv. ring. }
  assert (EM: mean_abs Ny nx Ey = (rsum Ny (fun j => Cmod (z j)) / INR Ny)%R).
  { unfold mean_abs. f_equal. apply rsum_ext. intros j _. rewrite HM. reflexivity. }
  rewrite EJ, EM. assert (HP: (0 < / INR Ny * / E0)%R) by (apply Rmult_lt_0_compat; apply Rinv_0_lt_compat; lra).
  split.
  - unfold Rdiv. rewrite !Rmult_assoc, Rabs_mult, (Rabs_pos_eq (/ INR Ny * / E0)) by lra. apply Rmult_le_compat_r; [lra|].
    eapply Rle_trans; [apply rsum_abs|]. apply rsum_le. intros j _. apply Cmod_Re_le.
  - split.
    + intros E j Hj. rewrite <- (HM j). change (z j = RtoC (Cmod (z j))). apply Re_eq_Cmod.
      unfold Rdiv in E. rewrite !Rmult_assoc in E. apply Rmult_eq_reg_r in E; [|lra].
      assert (Z: rsum Ny (fun j => Cmod (z j) - Re (z j))%R = 0%R) by (rewrite rsum_minus; lra).
      assert (P: (Cmod (z j) - Re (z j) <= rsum Ny (fun j => Cmod (z j) - Re (z j)))%R).
      { apply (rsum_term_le Ny (fun j => Cmod (z j) - Re (z j))%R j); [intros i _; assert (Q := Re_le_Cmod (z i)); lra|exact Hj]. }
      assert (Q := Re_le_Cmod (z j)). lra.
    + intro E. do 2 f_equal. apply rsum_ext. intros j Hj. unfold z at 1. rewrite (E j Hj). rewrite HM. reflexivity.
Qed.
(** The gain is at most the mean modulus of the field on the path of the electron, and equal to
    it exactly if the field has the phase of the electron everywhere on the path. *)
Theorem C123_gain_bound :
  forall Nx Ny nx dl beta lambda0 E0 Ey, (nx < Nx)%nat -> (0 < Ny)%nat -> (0 < E0)%R -> beta <> 0%R -> lambda0 <> 0%R ->
  let J := pf_val (accel_J Nx Ny nx dl beta lambda0 E0) [Ey] in
  let mean := (rsum Ny (fun j => Cmod (Ey (pix Ny nx j))) / INR Ny)%R in
  let phase j := (2 * PI * (INR j * dl) / (beta * lambda0))%R in
  (Rabs J <= mean / E0)%R /\
  (J = (mean / E0)%R <-> forall j, (j < Ny)%nat -> (Ey (pix Ny nx j) * (cos (phase j), sin (phase j)))%C = RtoC (Cmod (Ey (pix Ny nx j)))).
Proof.
  intros Nx Ny nx dl beta l0 E0 Ey Hx Hy H0 Hb Hl J mean phase.
  assert (EP: forall j, electron_phase dl beta l0 j = (cos (phase j), sin (phase j))).
  { intro j. unfold electron_phase, phase. cbv zeta. replace (2 * PI * dl * INR j / beta / l0)%R with (2 * PI * (INR j * dl) / (beta * l0))%R by (field; split; assumption). reflexivity. }
  destruct (gain_bound Nx Ny nx dl beta l0 E0 Ey Hx Hy H0) as [A B]. split; [exact A|]. fold J in B. change (mean_abs Ny nx Ey) with mean in B.
  split; [intros H j Hj; rewrite <- EP; apply (proj1 B H j Hj)|]. intro H. apply B. intros j Hj. rewrite EP. exact (H j Hj).
Qed.

(** autograd's gradient of the objective is its gradient *)
Theorem C123_objective_gradient : forall Nx Ny nx dl beta lambda0 E0 Ey, E0 <> 0%R ->
  is_gradient (Nx * Ny) (pf_val (accel_J Nx Ny nx dl beta lambda0 E0)) [Ey] (fun i => pf_grad (accel_J Nx Ny nx dl beta lambda0 E0) i [Ey]).
Proof.
  intros Nx Ny nx dl beta l0 E0 Ey HE eps He. exists 1%R. split; [lra|]. intros Gs HL _. cbn [accel_J pf_val pf_grad]. set (eta := accel_eta Ny nx dl beta l0).
  cbn [List.length rsum List.nth]. change (@List.nth vec) with (@List.nth (nat -> C)). change (fun _ : nat => RtoC 0) with vzero.
  match goal with |- (Rabs ?x <= _)%R => replace x with 0%R end.
  - rewrite Rabs_R0. apply Rmult_le_pos; [lra|apply change_nonneg].
  - rewrite Rplus_0_l, Re_csum. unfold Rdiv. rewrite <- !rsum_scal_r, <- !rsum_minus. symmetry. apply rsum_0. intros k Hk.
    unfold Cdiv. rewrite <- RtoC_inv by exact HE. autorewrite with reim. cbn [Re Im RtoC fst snd]. ring.
Qed.

(* ------------------------------------------------------------------ *)
(** ** The device *)
Lemma driven_inv e omega eps dl NPML L0 c amp s : (0 < dl)%R -> (0 < nd_nx eps)%nat -> (0 < nd_ny eps)%nat ->
  driven omega eps dl NPML L0 c amp = Ok s ->
  exists s0, Simulation omega eps dl (Some NPML) "Hz" L0 = Ok s0 /\ s = upd_src (column_src (nd_nx eps) (nd_ny eps) c amp) s0 /\ reachable e s0 /\
    s_Nx s0 = nd_nx eps /\ s_Ny s0 = nd_ny eps /\ s_eps s0 = eps /\
    (forall px, NPML = [px; 0]%Z -> snd (s_NPML s0) = 0%nat).
Proof.
  intros Hd Hx Hy H. unfold driven in H. destruct (Simulation omega eps dl (Some NPML) "Hz" L0) as [s0|] eqn:E; [|discriminate]. cbn [rbind] in H. injection H as <-.
  exists s0. split; [reflexivity|]. split; [reflexivity|]. split. { exists omega, eps, dl, (Some NPML), "Hz", L0, s0, []. repeat split; assumption. }
  assert (E' := E). apply Simulation_fields in E' as (_ & _ & _ & _ & _ & _ & _ & _ & _ & _ & E9 & _).
  split; [|split; [|split]]; [| | |intros px ->; rewrite (E9 _ _ eq_refl); reflexivity]; unfold Simulation in E; destruct (check_inputs _ _ _ _); try discriminate; injection E as <-; reflexivity.
Qed.
Lemma same_shape_grid omega eps1 eps2 dl NPML p L0 s1 s2 : nd_nx eps2 = nd_nx eps1 -> nd_ny eps2 = nd_ny eps1 ->
  Simulation omega eps1 dl NPML p L0 = Ok s1 -> Simulation omega eps2 dl NPML p L0 = Ok s2 -> same_grid s1 s2.
Proof.
  intros Hx Hy E1 E2. unfold Simulation in E1, E2. destruct (check_inputs _ _ _ _) as [x1|] in E1; [|discriminate]. destruct (check_inputs _ _ _ _) as [x2|] in E2; [|discriminate].
  injection E1 as <-. injection E2 as <-. unfold same_grid. repeat split; cbn; rewrite ?Hx, ?Hy; reflexivity.
Qed.
Lemma column_moves Nx Ny c amp b : (0 < Nx)%nat -> (0 < Ny)%nat ->
  moved_by Nx Ny 0 b (nd_buf (column_src Nx Ny c amp)) (nd_buf (column_src Nx Ny c amp)).
Proof.
  intros Hx Hy i j Hi Hj. cbn [column_src nd_buf]. unfold pix. rewrite Nat.add_0_r, !(Nat.mod_small i) by exact Hi.
  rewrite !flat_div; [reflexivity|assumption|apply Nat.mod_upper_bound; lia].
Qed.
Lemma phase_on_grid Ny dl beta lambda0 j : (0 < Ny)%nat -> (INR Ny * dl = beta * lambda0)%R -> (0 < dl)%R ->
  electron_phase dl beta lambda0 j = cis (2 * PI * INR j / INR Ny).
Proof.
  intros HN HG Hd. assert (P: (0 < INR Ny)%R) by (apply lt_0_INR; lia). assert (Q: (0 < beta * lambda0)%R) by (rewrite <- HG; apply Rmult_lt_0_compat; lra).
  assert (B: beta <> 0%R) by (intros ->; lra). assert (L: lambda0 <> 0%R) by (intros ->; lra).
  unfold electron_phase, cis. replace dl with (beta * lambda0 / INR Ny)%R by (rewrite <- HG; field; lra).
  cbv zeta. f_equal; f_equal; field; repeat split; try assumption; lra.
Qed.
Lemma cis_full Ny k : (0 < Ny)%nat -> cis (2 * PI * INR (k * Ny) / INR Ny) = RtoC 1.
Proof.
  intro H. assert (P: (0 < INR Ny)%R) by (apply lt_0_INR; lia). rewrite mult_INR. replace (2 * PI * (INR k * INR Ny) / INR Ny)%R with (0 + 2 * INR k * PI)%R by (field; lra).
  unfold cis. rewrite cos_period, sin_period, cos_0, sin_0. reflexivity.
Qed.
Lemma phase_shift Ny dl beta lambda0 j b : (0 < Ny)%nat -> (INR Ny * dl = beta * lambda0)%R -> (0 < dl)%R ->
  electron_phase dl beta lambda0 ((j + b) mod Ny) = (electron_phase dl beta lambda0 b * electron_phase dl beta lambda0 j)%C.
Proof.
  intros HN HG Hd. rewrite !(phase_on_grid Ny) by assumption. rewrite <- cis_plus. assert (P: (0 < INR Ny)%R) by (apply lt_0_INR; lia).
  set (q := ((j + b) / Ny)%nat). set (r := ((j + b) mod Ny)%nat).
  assert (E: (j + b = q * Ny + r)%nat) by (unfold q, r; rewrite Nat.mul_comm; apply Nat.div_mod_eq).
  replace (2 * PI * INR b / INR Ny + 2 * PI * INR j / INR Ny)%R with (2 * PI * INR (q * Ny) / INR Ny + 2 * PI * INR r / INR Ny)%R.
  - rewrite cis_plus, cis_full by exact HN. ring.
  - assert (F := f_equal INR E). rewrite !plus_INR in F. replace (INR b) with (INR (q * Ny) + INR r - INR j)%R by lra. field. lra.
Qed.
Lemma phase_one Ny dl beta lambda0 : (2 <= Ny)%nat -> (INR Ny * dl = beta * lambda0)%R -> (0 < dl)%R -> electron_phase dl beta lambda0 1 <> RtoC 1.
Proof.
  intros HN HG Hd. rewrite (phase_on_grid Ny) by (try assumption; lia). assert (P: (2 <= INR Ny)%R) by (change 2%R with (INR 2); apply le_INR, HN).
  intro E. apply (f_equal Re) in E. unfold cis in E. cbn [Re RtoC fst INR] in E. rewrite Rmult_1_r in E. assert (PP := PI_RGT_0).
  assert (T0: (0 < 2 * PI / INR Ny)%R) by (apply Rdiv_lt_0_compat; lra).
  assert (T1: (2 * PI / INR Ny <= PI)%R). { apply (Rmult_le_reg_r (INR Ny)); [lra|]. unfold Rdiv. rewrite Rmult_assoc, Rinv_l by lra. nra. }
  assert (C := cos_decreasing_1 0 (2 * PI / INR Ny) ltac:(lra) ltac:(lra) ltac:(lra) ltac:(lra) T0). rewrite cos_0 in C. lra.
Qed.
Lemma shift_sum N b (u : nat -> C) : (0 < N)%nat -> csum N (fun j => u ((j + b) mod N)%nat) = csum N u.
Proof.
  intro HN. apply (csum_renumber N (sh N b) (sh N (N - b mod N)) u). split; intros k Hk; (split; [apply sh_lt; lia|]); apply (sh_inv N b k Hk).
Qed.

(** Moving the structure along the channel by b pixels, around the period, turns the gain by the
    phase of the electron over b pixels: the modulus of the gain does not depend on the position. *)
Theorem C123_position_turns_phase :
  forall e omega eps1 eps2 dl px L0 c amp beta lambda0 b s1 s2 Ey1 Ey2,
  solver_exact e -> (0 < dl)%R -> (0 < nd_nx eps1)%nat -> (0 < nd_ny eps1)%nat -> nd_nx eps2 = nd_nx eps1 -> nd_ny eps2 = nd_ny eps1 ->
  (INR (nd_ny eps1) * dl = beta * lambda0)%R ->
  moved_by (nd_nx eps1) (nd_ny eps1) 0 b (nd_buf eps1) (nd_buf eps2) ->
  driven omega eps1 dl [px; 0]%Z L0 c amp = Ok s1 -> driven omega eps2 dl [px; 0]%Z L0 c amp = Ok s2 -> nonsingular (s_M s1) (s_A s1) ->
  Ey_of e s1 = Ok Ey1 -> Ey_of e s2 = Ok Ey2 ->
  let G := gain_amplitude (nd_ny eps1) (nd_nx eps1 / 2) dl beta lambda0 in
  G Ey2 = (electron_phase dl beta lambda0 b * G Ey1)%C /\ Cmod (G Ey2) = Cmod (G Ey1).
Proof.
  intros e omega eps1 eps2 dl px L0 c amp beta l0 b s1 s2 Ey1 Ey2 He Hd Hx Hy Ex Ey HG HM D1 D2 HN F1 F2 G.
  destruct (driven_inv e _ _ _ _ _ _ _ _ Hd Hx Hy D1) as (t1 & S1 & -> & R1 & N1 & N2 & N3 & N4).
  destruct (driven_inv e _ _ _ _ _ _ _ _ Hd ltac:(rewrite Ex; exact Hx) ltac:(rewrite Ey; exact Hy) D2) as (t2 & S2 & -> & R2 & M1 & M2 & M3 & M4). rewrite Ex, Ey in F2.
  unfold Ey_of in F1, F2.
  destruct (solve_fields e false false (upd_src _ t1)) as [t1' [[[a1 Y1] Z1]|]] eqn:Q1; [|discriminate]. injection F1 as ->.
  destruct (solve_fields e false false (upd_src _ t2)) as [t2' [[[a2 Y2] Z2]|]] eqn:Q2; [|discriminate]. injection F2 as ->.
  assert (EQ: moved_by (nd_nx eps1) (nd_ny eps1) 0 b Ey1 Ey2).
  { destruct (C79_translation_beside_pml e t1 t2 R1 R2 He ltac:(rewrite N1; exact Hx) ltac:(rewrite N2; exact Hy) (same_shape_grid _ _ _ _ _ _ _ _ _ Ex Ey S1 S2) HN 0%nat b _ _ false _ _ _ _ _ _ _ _ ltac:(right; apply Nat.mod_0_l; lia) ltac:(left; exact (N4 px eq_refl)) ltac:(rewrite N1, N2, N3, M3; exact HM) ltac:(rewrite N1, N2; apply column_moves; assumption) Q1 Q2) as (_ & _ & K).
    rewrite N1, N2 in K. exact K. }
  assert (E: G Ey2 = (electron_phase dl beta l0 b * G Ey1)%C).
  { unfold G, gain_amplitude, Cdiv. rewrite Cmult_assoc. f_equal. rewrite <- (shift_sum _ b) by exact Hy. rewrite <- csum_scal. apply csum_ext. intros j Hj.
    assert (I: (nd_nx eps1 / 2 < nd_nx eps1)%nat) by (apply Nat.div_lt; lia). assert (K := EQ _ j I Hj). rewrite Nat.add_0_r, (Nat.mod_small _ _ I) in K. rewrite K, (phase_shift (nd_ny eps1)) by assumption. ring. }
  split; [exact E|]. rewrite E, Cmod_mult, phase_mod. ring.
Qed.

(** A structure that does not vary along the channel gives no gain: in particular the empty domain
    and the slabs the optimization starts from. *)
Theorem C123_uniform_channel_gains_nothing :
  forall e omega eps dl px L0 c amp beta lambda0 E0 s Ey,
  solver_exact e -> (0 < dl)%R -> (0 < nd_nx eps)%nat -> (2 <= nd_ny eps)%nat -> (INR (nd_ny eps) * dl = beta * lambda0)%R ->
  (forall i j, (i < nd_nx eps)%nat -> (j < nd_ny eps)%nat -> nd_at eps i j = nd_at eps i 0) ->
  driven omega eps dl [px; 0]%Z L0 c amp = Ok s -> nonsingular (s_M s) (s_A s) -> Ey_of e s = Ok Ey ->
  pf_val (accel_J (nd_nx eps) (nd_ny eps) (nd_nx eps / 2) dl beta lambda0 E0) [Ey] = 0%R.
Proof.
  intros e omega eps dl px L0 c amp beta l0 E0 s Ey He Hd Hx Hy HG HU D HN F.
  assert (Hy': (0 < nd_ny eps)%nat) by lia.
  rewrite accel_value; [|apply Nat.div_lt; lia|exact Hy'].
  destruct (C123_position_turns_phase e omega eps eps dl px L0 c amp beta l0 1 s s Ey Ey He Hd Hx Hy' eq_refl eq_refl HG) as [E _]; try assumption.
  { intros i j Hi Hj. rewrite Nat.add_0_r, (Nat.mod_small i) by exact Hi. change (nd_at eps i ((j + 1) mod nd_ny eps) = nd_at eps i j). rewrite (HU i j Hi Hj). apply HU; [exact Hi|apply Nat.mod_upper_bound; lia]. }
  set (g := gain_amplitude _ _ _ _ _ Ey) in *.
  assert (Z: ((electron_phase dl beta l0 1 - RtoC 1) * g)%C = RtoC 0) by (rewrite E at 1; replace ((electron_phase dl beta l0 1 - RtoC 1) * (electron_phase dl beta l0 1 * g))%C with (electron_phase dl beta l0 1 * (electron_phase dl beta l0 1 * g - g))%C by ring; rewrite <- E; ring).
  apply Cmult_integral in Z as [Z| ->]; [|cbn; unfold Rdiv; ring].
  exfalso. apply (phase_one (nd_ny eps) dl beta l0 Hy HG Hd). replace (electron_phase dl beta l0 1) with (electron_phase dl beta l0 1 - RtoC 1 + RtoC 1)%C by ring. rewrite Z. ring.
Qed.
(** the slabs of the builder do not vary along the channel *)
Theorem C123_slabs_are_uniform : forall beta gap lambda0 L spc dl NPML eps_start eps design,
  accelerator beta gap lambda0 L spc dl NPML eps_start = Ok (eps, design) ->
  forall i j, (i < nd_nx eps)%nat -> (j < nd_ny eps)%nat -> nd_at eps i j = nd_at eps i 0.
Proof.
  intros * H i j Hi Hj. apply C61_accelerator in H as (p0 & nx & ny & _ & _ & _ & _ & _ & _ & _ & _ & F & _).
  destruct (F i j Hi Hj) as [F1 F2]. destruct (F i 0%nat Hi ltac:(lia)) as [F3 F4].
  destruct (Classical_Prop.classic (gap / 2 < Rabs (grid_coord (nd_nx eps) dl i) < gap / 2 + L)%R) as [Q|Q]; [rewrite F1, F3 by exact Q|rewrite F2, F4 by exact Q]; reflexivity.
Qed.

(** The objective is the gain of the given structure, per mean field of the reference structure. *)
Theorem C123_gain_per_reference_field :
  forall e omega eps eps_norm dl NPML L0 c beta lambda0 amp g, (0 < nd_nx eps)%nat -> (0 < nd_ny eps)%nat -> beta <> 0%R -> lambda0 <> 0%R ->
  accel_gain e omega eps eps_norm dl NPML L0 c beta lambda0 amp = Ok g ->
  exists s sn Ey En, driven omega eps dl NPML L0 c amp = Ok s /\ Ey_of e s = Ok Ey /\
    driven omega eps_norm dl NPML L0 c amp = Ok sn /\ Ey_of e sn = Ok En /\
    let Ny := nd_ny eps in let nx := (nd_nx eps / 2)%nat in
    let phase j := (2 * PI * (INR j * dl) / (beta * lambda0))%R in
    let E0 := (rsum Ny (fun j => Cmod (En (pix Ny nx j))) / INR Ny)%R in
    (E0 <> 0 -> g * E0 = Re (csum Ny (fun j => Ey (pix Ny nx j) * (cos (phase j), sin (phase j)))%C) / INR Ny)%R.
Proof.
  intros e omega eps en dl NPML L0 c beta l0 amp g Hx Hy Hb Hl H. unfold accel_gain in H. cbv zeta in H.
  destruct (driven omega en dl NPML L0 c amp) as [sn|] eqn:A1; [|discriminate]. cbn [rbind] in H. destruct (Ey_of e sn) as [En|] eqn:B1; [|discriminate]. cbn [rbind] in H.
  destruct (driven omega eps dl NPML L0 c amp) as [s|] eqn:A2; [|discriminate]. cbn [rbind] in H. destruct (Ey_of e s) as [Ey|] eqn:B2; [|discriminate]. cbn [rbind] in H.
  assert (OI: forall a b : R, Ok a = Ok b -> a = b) by (intros a b Q; injection Q; auto). apply OI in H. subst g.
  exists s, sn, Ey, En. do 4 (split; [reflexivity || assumption|]). intros Ny nx phase E0 HE.
  rewrite accel_value; [|apply Nat.div_lt; lia|exact Hy]. change (mean_abs (nd_ny eps) (nd_nx eps / 2) En) with E0.
  assert (HN: (0 < INR Ny)%R) by (apply lt_0_INR; exact Hy).
  assert (EP: csum Ny (fun j => Ey (pix Ny nx j) * electron_phase dl beta l0 j)%C = csum Ny (fun j => Ey (pix Ny nx j) * (cos (phase j), sin (phase j)))%C).
  { apply csum_ext. intros j _. unfold electron_phase, phase. cbv zeta. replace (2 * PI * dl * INR j / beta / l0)%R with (2 * PI * (INR j * dl) / (beta * l0))%R by (field; split; assumption). reflexivity. }
  unfold gain_amplitude. fold Ny nx. rewrite EP. unfold Cdiv. rewrite <- RtoC_inv by lra. autorewrite with reim. cbn [Re Im RtoC fst snd]. set (r := Re _). field. split; lra || assumption.
Qed.

(** The amplitude of the source cancels. *)
Theorem C123_source_strength_cancels :
  forall e omega eps eps_norm dl NPML L0 c beta lambda0 x y g1 g2,
  solver_exact e -> (0 < x)%R -> (0 < y)%R -> (0 < dl)%R -> (0 < nd_nx eps)%nat -> (0 < nd_ny eps)%nat -> nd_nx eps_norm = nd_nx eps -> nd_ny eps_norm = nd_ny eps ->
  (forall s, driven omega eps dl NPML L0 c x = Ok s -> nonsingular (s_M s) (s_A s)) ->
  (forall s, driven omega eps_norm dl NPML L0 c x = Ok s -> nonsingular (s_M s) (s_A s)) ->
  accel_gain e omega eps eps_norm dl NPML L0 c beta lambda0 x = Ok g1 ->
  accel_gain e omega eps eps_norm dl NPML L0 c beta lambda0 y = Ok g2 -> g1 = g2.
Proof.
  intros e omega eps en dl NPML L0 c beta l0 x y g1 g2 He Hx0 Hy0 Hd Hx Hy Ex Ey HN HNn H1 H2.
  assert (SC: forall ep, nd_nx ep = nd_nx eps -> nd_ny ep = nd_ny eps -> (forall s, driven omega ep dl NPML L0 c x = Ok s -> nonsingular (s_M s) (s_A s)) ->
    forall s t E F, driven omega ep dl NPML L0 c x = Ok s -> driven omega ep dl NPML L0 c y = Ok t -> Ey_of e s = Ok E -> Ey_of e t = Ok F ->
    forall k, (k < nd_nx eps * nd_ny eps)%nat -> E k = (RtoC (x / y) * F k)%C).
  { intros ep X1 X2 HS s t E F D1 D2 F1 F2 k Hk. assert (NS := HS s D1). 
    destruct (driven_inv e _ _ _ _ _ _ _ _ Hd ltac:(rewrite X1; exact Hx) ltac:(rewrite X2; exact Hy) D1) as (t1 & S1 & -> & R1 & N1 & N2 & _).
    destruct (driven_inv e _ _ _ _ _ _ _ _ Hd ltac:(rewrite X1; exact Hx) ltac:(rewrite X2; exact Hy) D2) as (t2 & S2 & -> & _). rewrite S1 in S2. injection S2 as <-.
    unfold Ey_of in F1, F2.
    destruct (solve_fields e false false (upd_src (column_src _ _ c x) t1)) as [t1' [[[a1 Y1] Z1]|]] eqn:Q1; [|discriminate]. injection F1 as ->.
    destruct (solve_fields e false false (upd_src (column_src _ _ c y) t1)) as [t2' [[[a2 Y2] Z2]|]] eqn:Q2; [|discriminate]. injection F2 as ->.
    assert (HC: forall q, (q < s_M t1)%nat -> nd_buf (column_src (nd_nx ep) (nd_ny ep) c x) q = (RtoC (x / y) * nd_buf (column_src (nd_nx ep) (nd_ny ep) c y) q + RtoC 0 * nd_buf (column_src (nd_nx ep) (nd_ny ep) c y) q)%C).
    { intros q _. cbn [column_src nd_buf]. destruct (Nat.eqb _ c); [|ring]. rewrite RtoC_div by lra. field. apply RtoC_neq0. lra. }
    destruct (C10_linear_in_source e t1 R1 He NS false _ _ _ _ _ _ _ _ _ _ _ _ _ _ _ _ _ HC Q2 Q2 Q1 k ltac:(unfold s_M; rewrite N1, N2, X1, X2; exact Hk)) as (_ & K & _). rewrite K. ring. }
  unfold accel_gain in H1, H2. cbv zeta in H1, H2.
  destruct (driven omega en dl NPML L0 c x) as [n1|] eqn:A1; [|discriminate]. destruct (driven omega en dl NPML L0 c y) as [n2|] eqn:A2; [|discriminate]. cbn [rbind] in H1, H2.
  destruct (Ey_of e n1) as [E1|] eqn:B1; [|discriminate]. destruct (Ey_of e n2) as [E2|] eqn:B2; [|discriminate]. cbn [rbind] in H1, H2.
  destruct (driven omega eps dl NPML L0 c x) as [s1|] eqn:A3; [|discriminate]. destruct (driven omega eps dl NPML L0 c y) as [s2|] eqn:A4; [|discriminate]. cbn [rbind] in H1, H2.
  destruct (Ey_of e s1) as [F1|] eqn:B3; [|discriminate]. destruct (Ey_of e s2) as [F2|] eqn:B4; [|discriminate]. cbn [rbind] in H1, H2.
  assert (OI: forall a b : R, Ok a = Ok b -> a = b) by (intros a b Q; injection Q; auto). apply OI in H1, H2. rewrite <- H1, <- H2. clear OI H1 H2.
  assert (K1 := SC en Ex Ey ltac:(intros s Q; rewrite A1 in Q; injection Q as <-; apply HNn; reflexivity) n1 n2 E1 E2 A1 A2 B1 B2).
  assert (K2 := SC eps eq_refl eq_refl ltac:(intros s Q; rewrite A3 in Q; injection Q as <-; apply HN; reflexivity) s1 s2 F1 F2 A3 A4 B3 B4).
  assert (I: (nd_nx eps / 2 < nd_nx eps)%nat) by (apply Nat.div_lt; lia). rewrite !accel_value by assumption.
  assert (XY: (0 < x / y)%R) by (apply Rdiv_lt_0_compat; lra).
  assert (M1: mean_abs (nd_ny eps) (nd_nx eps / 2) E1 = (x / y * mean_abs (nd_ny eps) (nd_nx eps / 2) E2)%R).
  { unfold mean_abs, Rdiv at 1 3. rewrite <- Rmult_assoc, <- rsum_scal. f_equal. apply rsum_ext. intros j Hj. rewrite K1 by (apply flat_lt; assumption). rewrite Cmod_mult, Cmod_R, Rabs_pos_eq by lra. reflexivity. }
  assert (M2: gain_amplitude (nd_ny eps) (nd_nx eps / 2) dl beta l0 F1 = (RtoC (x / y) * gain_amplitude (nd_ny eps) (nd_nx eps / 2) dl beta l0 F2)%C).
  { unfold gain_amplitude, Cdiv. rewrite Cmult_assoc, <- csum_scal. f_equal. apply csum_ext. intros j Hj. rewrite K2 by (apply flat_lt; assumption). ring. }
  rewrite M1, M2. autorewrite with reim. cbn [Re Im RtoC fst snd]. 
  set (G := Re (gain_amplitude _ _ _ _ _ F2)). set (m := mean_abs _ _ E2). set (r := (x / y)%R) in *. unfold Rdiv. rewrite Rinv_mult. transitivity ((r * / r) * (G * / m))%R; [ring|]. rewrite Rinv_r by lra. ring.
Qed.

(* ------------------------------------------------------------------ *)
(** ** Examples: a 6 x 3 domain with one pixel of PML along the first axis *)
Definition tooth (p : nat) : nd R := mkNd 6 3 (fun k => if Nat.eqb k p then 5%R else 1%R).
Lemma outside_list (l : list R) : exists w, (0 < w)%R /\ ~ In w l.
Proof.
  assert (H: exists w, (0 < w)%R /\ forall x, In x l -> (x < w)%R).
  { induction l as [|a l [w [P Q]]]; [exists 1%R; split; [lra|intros x []]|]. exists (w + Rabs a + 1)%R. assert (A := Rabs_pos a). assert (B := Rle_abs a). split; [lra|]. intros x [<-|Hx]; [lra|]. specialize (Q x Hx). lra. }
  destruct H as (w & P & Q). exists w. split; [exact P|]. intro H. specialize (Q w H). lra.
Qed.
Lemma ex_driven w p amp : (0 < w)%R -> exists s, driven w (tooth p) 1 [1; 0]%Z 1 0 amp = Ok s /\ exists Ey, Ey_of ex_env s = Ok Ey.
Proof.
  intro Hw.
  assert (Hs : exists s, Simulation w (tooth p) 1 (Some [1; 0]%Z) "Hz" 1 = Ok s).
  { unfold Simulation, check_inputs. destruct (Rlt_dec 0 1); [|lra]. destruct (Rlt_dec 0 w); [|contradiction]. eexists. reflexivity. }
  destruct Hs as [s Hs]. exists (upd_src (column_src 6 3 0 amp) s). unfold driven. rewrite Hs. split; [reflexivity|].
  destruct (solve_fields_lin ex_env false (upd_src (column_src 6 3 0 amp) s)) as [X [_ HX]].
  - assert (Q := Hs). unfold Simulation in Q. destruct (check_inputs _ _ _ _); try discriminate. injection Q as <-. reflexivity.
  - cbv zeta in HX. unfold Ey_of. rewrite HX. assert (Q := Hs). unfold Simulation in Q. destruct (check_inputs _ _ _ _); try discriminate. injection Q as <-. eexists. reflexivity.
Qed.
Lemma ex_driven_ns w p l : (forall omega s, Simulation omega (tooth p) 1 (Some [1; 0]%Z) "Hz" 1 = Ok s -> ~ In omega l -> one_field s) -> ~ In w l ->
  forall amp s, driven w (tooth p) 1 [1; 0]%Z 1 0 amp = Ok s -> nonsingular (s_M s) (s_A s).
Proof.
  intros H Hn amp s D. unfold driven in D. destruct (Simulation w (tooth p) 1 (Some [1; 0]%Z) "Hz" 1) as [s0|] eqn:E; [|discriminate]. cbn [rbind] in D. injection D as <-.
  exact (proj1 (one_field_iff s0) (H _ _ E Hn)).
Qed.
(** One frequency at which a tooth, the same tooth one pixel further along the channel, and the
    empty channel ([tooth 99]) all meet the hypotheses of the theorems on the objective. *)
Example C123_met : exists w,
  solver_exact ex_env /\ (INR 3 * 1 = 1 * 3)%R /\ moved_by 6 3 0 1 (nd_buf (tooth 9)) (nd_buf (tooth 10)) /\ nd_buf (tooth 9) 9%nat <> nd_buf (tooth 9) 10%nat /\
  (forall i j, (i < 6)%nat -> (j < 3)%nat -> nd_at (tooth 99) i j = nd_at (tooth 99) i 0) /\
  (forall p amp, In p [9; 10; 99]%nat -> exists s Ey, driven w (tooth p) 1 [1; 0]%Z 1 0 amp = Ok s /\ nonsingular (s_M s) (s_A s) /\ Ey_of ex_env s = Ok Ey) /\
  (forall amp, exists g, accel_gain ex_env w (tooth 9) (tooth 99) 1 [1; 0]%Z 1 0 1 3 amp = Ok g).
Proof.
  assert (HP: forall p, positive (tooth p)) by (intros p k _; cbn [tooth nd_buf]; destruct (Nat.eqb k p); lra).
  destruct (C106_almost_every_frequency (tooth 9) 1 (Some [1; 0]%Z) "Hz" 1 ltac:(lra) (HP _)) as [l1 H1].
  destruct (C106_almost_every_frequency (tooth 10) 1 (Some [1; 0]%Z) "Hz" 1 ltac:(lra) (HP _)) as [l2 H2].
  destruct (C106_almost_every_frequency (tooth 99) 1 (Some [1; 0]%Z) "Hz" 1 ltac:(lra) (HP _)) as [l3 H3].
  destruct (outside_list (l1 ++ l2 ++ l3)) as (w & Hw & Hn). exists w.
  assert (N1: ~ In w l1) by (intro Q; apply Hn, in_or_app; left; exact Q).
  assert (N2: ~ In w l2) by (intro Q; apply Hn, in_or_app; right; apply in_or_app; left; exact Q).
  assert (N3: ~ In w l3) by (intro Q; apply Hn, in_or_app; right; apply in_or_app; right; exact Q).
  split; [exact ex_env_exact|]. split; [simpl; lra|]. split.
  { intros i j Hi Hj. do 6 (destruct i as [|i]; [do 3 (destruct j as [|j]; [reflexivity|]); lia|]). lia. }
  split; [cbn; lra|]. split.
  { intros i j Hi Hj. do 6 (destruct i as [|i]; [do 3 (destruct j as [|j]; [reflexivity|]); lia|]). lia. }
  split.
  - intros p amp Hp. destruct (ex_driven w p amp Hw) as (s & D & Ey & F). exists s, Ey. split; [exact D|]. split; [|exact F].
    destruct Hp as [<-|[<-|[<-|[]]]]; [exact (ex_driven_ns _ _ _ H1 N1 _ _ D)|exact (ex_driven_ns _ _ _ H2 N2 _ _ D)|exact (ex_driven_ns _ _ _ H3 N3 _ _ D)].
  - intro amp. destruct (ex_driven w 99 amp Hw) as (sn & D & En & F). destruct (ex_driven w 9 amp Hw) as (s & D' & Ey & F').
    unfold accel_gain. rewrite D. cbn [rbind]. rewrite F. cbn [rbind]. rewrite D'. cbn [rbind]. rewrite F'. cbn [rbind]. eexists. reflexivity.
Qed.
(** the hypotheses of [C79_translation_beside_pml], with PML on the first axis *)
Example C79_beside_pml_met : forall p, (p = "Ez" \/ p = "Hz") -> exists s1 s2, reachable ex_env s1 /\ reachable ex_env s2 /\ same_grid s1 s2 /\
  s_NPML s1 = (1, 0)%nat /\ nonsingular (s_M s1) (s_A s1) /\ moved_by (s_Nx s1) (s_Ny s1) 0 1 (nd_buf (s_eps s1)) (nd_buf (s_eps s2)) /\
  nd_buf (s_eps s1) 9%nat <> nd_buf (s_eps s2) 9%nat.
Proof.
  intros p Hp.
  assert (HP: forall q, positive (tooth q)) by (intros q k _; cbn [tooth nd_buf]; destruct (Nat.eqb k q); lra).
  destruct (C106_almost_every_frequency (tooth 9) 1 (Some [1; 0]%Z) p 1 ltac:(lra) (HP _)) as [l H].
  destruct (outside_list l) as (w & Hw & Hn).
  assert (HS: forall q, exists s, Simulation w (tooth q) 1 (Some [1; 0]%Z) p 1 = Ok s).
  { intro q. unfold Simulation, check_inputs. destruct (Rlt_dec 0 1); [|lra]. destruct (Rlt_dec 0 w); [|contradiction]. destruct Hp as [-> | ->]; eexists; reflexivity. }
  destruct (HS 9%nat) as [s1 S1]. destruct (HS 10%nat) as [s2 S2]. exists s1, s2.
  assert (HR: forall q s, Simulation w (tooth q) 1 (Some [1; 0]%Z) p 1 = Ok s -> reachable ex_env s).
  { intros q s S. exists w, (tooth q), 1%R, (Some [1; 0]%Z), p, 1%R, s, []. repeat split; try assumption; cbn; try lia; lra. }
  split; [exact (HR _ _ S1)|]. split; [exact (HR _ _ S2)|].
  assert (HN := proj1 (one_field_iff s1) (H _ _ S1 Hn)).
  unfold Simulation in S1, S2. destruct (check_inputs _ _ _ _); try discriminate.
  assert (I1: forall a b : sim, Ok a = Ok b -> a = b) by (intros a b Q; injection Q as Q; exact Q).
  apply I1 in S1. apply I1 in S2. subst s1 s2.
  split; [repeat split|]. split; [reflexivity|]. split; [exact HN|]. split.
  - cbn [s_Nx s_Ny s_eps nd_buf]. intros i j Hi Hj. change (i < 6)%nat in Hi. change (j < 3)%nat in Hj. do 6 (destruct i as [|i]; [do 3 (destruct j as [|j]; [reflexivity|]); lia|]). lia.
  - cbn. lra.
Qed.
(** a field in step with the electron reaches the bound *)
Example C123_gain_bound_met : let Ey : vec := fun k => Cconj (electron_phase 1 1 3 (k mod 3)) in
  mean_abs 3 3 Ey = 1%R /\ pf_val (accel_J 6 3 3 1 1 3 1) [Ey] = 1%R.
Proof.
  intro Ey.
  assert (M1: forall j, (j < 3)%nat -> Cmod (Ey (3 * 3 + j)%nat) = 1%R) by (intros j Hj; unfold Ey; rewrite Cmod_conj; apply phase_mod).
  assert (HM: mean_abs 3 3 Ey = 1%R).
  { unfold mean_abs. cbn [rsum]. rewrite !M1 by lia. simpl. lra. }
  split; [exact HM|].
  destruct (gain_bound 6 3 3 1 1 3 1 Ey ltac:(lia) ltac:(lia) ltac:(lra)) as [_ [_ B]]. rewrite B; [rewrite HM; lra|].
  intros j Hj. unfold pix. rewrite (M1 j Hj). unfold Ey. replace ((3 * 3 + j) mod 3)%nat with j by (do 3 (destruct j as [|j]; [reflexivity|]); lia).
  unfold electron_phase. set (t := (2 * PI * 1 * INR j / 1 / 3)%R). assert (Q := sin2_cos2 t). unfold Rsqr in Q. unfold Cconj, Cmult, RtoC; cbn [fst snd]. f_equal; lra.
Qed.
