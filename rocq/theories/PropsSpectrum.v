(** C97: the spectra of a saved device (data/spectrum_plotter.py). *)
From Coq Require Import Reals Lra Lia List ZArith Arith Bool String.
From Coquelicot Require Import Coquelicot.
From Verif Require Import Base Linear MCore MSim MFilter MOpt MMode MStruct MDevice MSpectrum Spec PCore PSim PropsStruct PEx PExOpt PMode PropsCore PropsSolve PropsLin PropsIter PropsOpt3 PropsFlux PropsMode PropsScan POpt PropsGrad PropsOpt2 PropsFlat PropsDevice.
Import ListNotations.
Local Open Scope string_scope.

(** ** The specification *)

(** The power that a probe at the given place finds in the linear fields of angular frequency w:
    the fields are those of the structure and source of s, with the matrix of w. *)
Definition linear_power (s : sim) (w : R) (dir : string) (center : Z * Z) (width : Z) (P : R) : Prop :=
  exists t a b X, lin_fields (at_omega s w) (a, b, X) /\ same_problem (at_omega s w) t /\
    (exists d, s_fields t = store3 (s_pol s) d (a, b, X)) /\ flux_probe dir center width false t = Ok P.

(** The device is as before, but for the linear fields of its simulation *)
Definition device_kept (d d' : device) : Prop :=
  (forall k, dv_dict d' k = dv_dict d k) /\ dv_opt d' = dv_opt d /\ dv_osim d' = dv_osim d /\ same_problem (dv_sim d) (dv_sim d').

Lemma device_kept_refl d : device_kept d d.
Proof. repeat split. Qed.

(** ** The loop *)

Lemma over_run w d d' r : over_W_in w d = (d', r) -> d' = d /\ forall q, r = Ok q -> exists W, dv_dict d "W_in" = Some (VNum W) /\ q = ratio w W.
Proof.
  unfold over_W_in, bind, getattr, lift, ret, raise. destruct (dv_dict d "W_in") as [[]|] eqn:E; intro H; injection H as <- <-; (split; [reflexivity|]); intros q1 Q; try discriminate.
  injection Q as <-. eauto.
Qed.
Lemma spectrum_loop_spec e probe E0 fs : forall d d' r, spectrum_loop e probe E0 fs d = (d', r) -> d' = d /\
  forall l, r = Ok l -> List.length l = List.length fs /\
  forall i, (i < List.length fs)%nat -> exists t F c w W,
    solve_fields_nl e false (Some E0) "hybrid" (1 / 10 ^ 10)%R 50 (at_omega (dv_sim d) (2 * PI * List.nth i fs 0%R)) = (t, Ok (F, c)) /\
    snd (probe t) = Ok w /\ dv_dict d "W_in" = Some (VNum W) /\ List.nth i l None = ratio w W.
Proof.
  induction fs as [|f fs IH]; intros d d' r H; cbn [spectrum_loop] in H.
  - injection H as <- <-. split; [reflexivity|]. intros l Q. injection Q as <-. split; [reflexivity|]. cbn. lia.
  - change (set_eps (s_eps (dv_sim d)) (upd_omega (2 * PI * f) (dv_sim d))) with (at_omega (dv_sim d) (2 * PI * f)) in H.
    destruct (solve_fields_nl e false (Some E0) "hybrid" (1 / 10 ^ 10) 50 (at_omega (dv_sim d) (2 * PI * f))) as [t [[F c]|x]] eqn:E1; [|injection H as <- <-; split; [reflexivity|discriminate]].
    destruct (probe t) as [t' [w|x]] eqn:E2; [|injection H as <- <-; split; [reflexivity|discriminate]].
    unfold bind in H. destruct (over_W_in w d) as [d1 [q|x]] eqn:E3; apply over_run in E3 as [-> E3]; [|injection H as <- <-; split; [reflexivity|discriminate]].
    destruct (spectrum_loop e probe E0 fs d) as [d2 [l|x]] eqn:E4; apply IH in E4 as [-> E4]; [|injection H as <- <-; split; [reflexivity|discriminate]].
    injection H as <- <-. split; [reflexivity|]. intros l0 Q. injection Q as <-. destruct (E4 l eq_refl) as [L1 L2]. split; [cbn; congruence|].
    intros i Hi. destruct i as [|i].
    + destruct (E3 q eq_refl) as (W & HW & ->). exists t, F, c, w, W. rewrite E2. auto.
    + apply L2. cbn in Hi. lia.
Qed.

Lemma freqs_spec om df Nf i : (i < Nf)%nat -> List.nth i (List.map (scan_freq om df Nf) (List.seq 0 Nf)) 0%R = scan_freq om df Nf i.
Proof.
  intro Hi. rewrite (nth_indep _ 0%R (scan_freq om df Nf 0)) by (rewrite map_length, seq_length; exact Hi). rewrite map_nth, seq_nth by exact Hi. reflexivity.
Qed.

Lemma scan_inv e probe Nf df d d' r : spectrum_scan e probe Nf df d = (d', r) ->
  device_kept d d' /\
  ((nd_size (s_src (dv_sim d)) <> s_M (dv_sim d) /\ r = Raise ValueError) \/
   exists s1 F r1, solve_fields e false false (dv_sim d) = (s1, Ok F) /\ d' = mkDev s1 (dv_opt d) (dv_osim d) (dv_dict d) /\
     spectrum_loop e probe (snd F) (List.map (scan_freq (s_omega (dv_sim d)) df Nf) (List.seq 0 Nf)) d' = (d', r1) /\
     match r1 with Ok l => r = Ok (List.map (scan_freq (s_omega (dv_sim d)) df Nf) (List.seq 0 Nf), l) | Raise x => r = Raise x end).
Proof.
  unfold spectrum_scan, bind, getS, on_sim, ret. intro H.
  destruct (solve_fields e false false (dv_sim d)) as [s1 [F|x]] eqn:E1.
  - assert (HS : same_problem (dv_sim d) s1) by (apply solve_fields_lin_state in E1; apply E1).
    destruct (spectrum_loop e probe (snd F) _ _) as [d2 r2] eqn:E2. assert (E3 := E2). apply spectrum_loop_spec in E3 as [-> _].
    assert (K : d' = mkDev s1 (dv_opt d) (dv_osim d) (dv_dict d) /\ match r2 with Ok l => r = Ok (List.map (scan_freq (s_omega (dv_sim d)) df Nf) (List.seq 0 Nf), l) | Raise x => r = Raise x end).
    { destruct r2; injection H as <- <-; auto. }
    destruct K as [-> K]. split; [split; [reflexivity|split; [reflexivity|split; [reflexivity|exact HS]]]|]. right. exists s1, F, r2. auto.
  - apply solve_fields_lin_state in E1 as [HS [(Q1 & -> & Q2)|(_ & X & _ & Q)]].
    + injection Q1 as ->. injection H as <- <-. split; [destruct d; apply device_kept_refl|]. left. auto.
    + exfalso. cbv zeta in Q. destruct Q as [_ Q]. discriminate.
Qed.

Lemma at_omega_fields s d w : at_omega (upd_fields d s) w = at_omega s w.
Proof. reflexivity. Qed.
Lemma lin_state e s s1 F : solve_fields e false false s = (s1, Ok F) -> exists d, s1 = upd_fields d s.
Proof.
  intro H. assert (H0 := H). apply solve_fields_lin_state in H0 as [_ [(Q & _)|(HZ & _)]]; [discriminate|].
  destruct (solve_fields_lin e false s HZ) as (X & _ & E). cbv zeta in E. rewrite E in H. injection H as <- _. eexists. reflexivity.
Qed.

Definition flux_at (dir : string) (center : Z * Z) (width : Z) (nl : bool) : St sim R := fun s => (s, flux_probe dir center width nl s).

(** What a scan with a probe of the nonlinear fields returns: the frequencies, and for each the power
    that the probe finds after solve_fields_nl at this frequency, started from the linear field of the
    device, over the input power stored in the device. *)
Theorem C97_scan_values :
  forall e dir center width Nf df d d' fs l,
  spectrum_scan e (flux_at dir center width true) Nf df d = (d', Ok (fs, l)) ->
  device_kept d d' /\ List.length fs = Nf /\ List.length l = Nf /\
  ((2 <= Nf)%nat -> forall i, (i < Nf)%nat -> List.nth i fs 0%R = (s_omega (dv_sim d) * (1 - df / 2 + INR i * (df / INR (Nf - 1))) / (2 * PI))%R) /\
  exists s1 F, solve_fields e false false (dv_sim d) = (s1, Ok F) /\
  forall i, (i < Nf)%nat -> exists t G c P W,
    solve_fields_nl e false (Some (snd F)) "hybrid" (1 / 10 ^ 10)%R 50 (at_omega (dv_sim d) (2 * PI * List.nth i fs 0%R)) = (t, Ok (G, c)) /\
    flux_probe dir center width true t = Ok P /\ dv_dict d "W_in" = Some (VNum W) /\ List.nth i l None = ratio P W.
Proof.
  intros e dir center width Nf df d d' fs l H. apply scan_inv in H as [HK [(_ & Q)|(s1 & F & r1 & E1 & -> & E2 & Q)]]; [discriminate|].
  split; [exact HK|]. destruct r1 as [l1|]; [|discriminate]. injection Q as -> ->. apply spectrum_loop_spec in E2 as [_ E2]. destruct (E2 l1 eq_refl) as [L1 L2].
  rewrite map_length, seq_length in L1, L2. split; [rewrite map_length, seq_length; reflexivity|]. split; [exact L1|]. split.
  - intros HN i Hi. rewrite freqs_spec by exact Hi. unfold scan_freq, MOpt.linspace. replace (Nat.leb Nf 1) with false by (symmetry; apply Nat.leb_gt; lia).
    assert (HPI := PI_RGT_0). assert ((0 < INR (Nf - 1))%R) by (apply lt_0_INR; lia). field. lra.
  - exists s1, F. split; [exact E1|]. intros i Hi. destruct (L2 i Hi) as (t & G & c & w & W & A & B & C & D). cbn [dv_sim dv_dict] in A, C.
    destruct (lin_state _ _ _ _ E1) as [fd ->]. rewrite at_omega_fields in A. exists t, G, c, w, W. auto.
Qed.

(** The frequencies lie symmetrically about that of the device; an odd number of them contains it. *)
Theorem C97_frequencies_about_the_centre :
  forall e dir center width nl Nf df d d' fs l,
  spectrum_scan e (flux_at dir center width nl) Nf df d = (d', Ok (fs, l)) -> (2 <= Nf)%nat ->
  (forall i, (i < Nf)%nat -> (List.nth i fs 0 + List.nth (Nf - 1 - i) fs 0 = 2 * (s_omega (dv_sim d) / (2 * PI)))%R) /\
  (List.nth (Nf - 1) fs 0 - List.nth 0 fs 0 = df * (s_omega (dv_sim d) / (2 * PI)))%R /\
  (forall n, Nf = (2 * n + 1)%nat -> List.nth n fs 0%R = (s_omega (dv_sim d) / (2 * PI))%R).
Proof.
  intros e dir center width nl Nf df d d' fs l H HN.
  assert (HF : forall i, (i < Nf)%nat -> List.nth i fs 0%R = (s_omega (dv_sim d) * (1 - df / 2 + INR i * (df / INR (Nf - 1))) / (2 * PI))%R).
  { apply scan_inv in H as [HK [(_ & Q)|(s1 & F & r1 & E1 & -> & E2 & Q)]]; [discriminate|]. destruct r1 as [l1|]; [|discriminate]. injection Q as -> _.
    intros i Hi. rewrite freqs_spec by exact Hi. unfold scan_freq, MOpt.linspace. replace (Nat.leb Nf 1) with false by (symmetry; apply Nat.leb_gt; lia).
    assert (HPI := PI_RGT_0). assert ((0 < INR (Nf - 1))%R) by (apply lt_0_INR; lia). field. lra. }
  assert (HPI := PI_RGT_0). assert (HP : (0 < INR (Nf - 1))%R) by (apply lt_0_INR; lia). split; [|split].
  - intros i Hi. rewrite !HF by lia. rewrite (minus_INR (Nf - 1) i) by lia. field. lra.
  - rewrite !HF by lia. cbn [INR]. field. lra.
  - intros n ->. rewrite HF by lia. replace (2 * n + 1 - 1)%nat with (2 * n)%nat in * by lia. rewrite mult_INR in *. cbn [INR] in *. field. assert (INR n <> 0)%R by lra. lra.
Qed.

(** [linear_power] is one number *)
Theorem C97_linear_power_unique :
  forall s w dir center width P Q, nonsingular (s_M (at_omega s w)) (s_A (at_omega s w)) ->
  linear_power s w dir center width P -> linear_power s w dir center width Q -> P = Q.
Proof.
  intros s w dir c wd P Q HA (t & a & b & X & L1 & S1 & [d1 F1] & H1) (u & a2 & b2 & X2 & L2 & S2 & [d2 F2] & H2).
  assert (K := lin_fields_scaled (at_omega s w) (at_omega s w) (RtoC 1) _ _ _ _ _ _ HA eq_refl eq_refl (fun _ => eq_refl) ltac:(intros; ring) L2 L1).
  assert (EP : s_pol (at_omega s w) = s_pol s) by reflexivity.
  destruct (same_system _ _ S1) as (M1 & _ & P1 & _). 
  assert (Z := flux_scaled 1 dir c wd false t u a b X a2 b2 X2).
  rewrite Z in H2.
  - rewrite H1 in H2. injection H2 as <-. ring.
  - unfold same_grid. unfold same_problem in S1, S2. intuition congruence.
  - exists d1. unfold probe_fields. rewrite F1, P1, EP. reflexivity.
  - exists d2. unfold probe_fields. rewrite F2, P1, EP. reflexivity.
  - rewrite M1. exact K.
Qed.

(** For a device without nonlinearity the entries are the transmitted powers of the linear fields at
    these frequencies, whatever field the solver was started from. *)
Theorem C97_linear_device :
  forall e dir center width Nf df d d' fs l,
  solver_exact e -> no_nonlinearity (dv_sim d) ->
  spectrum_scan e (flux_at dir center width true) Nf df d = (d', Ok (fs, l)) ->
  forall i, (i < Nf)%nat ->
  nonsingular (s_M (at_omega (dv_sim d) (2 * PI * List.nth i fs 0%R))) (s_A (at_omega (dv_sim d) (2 * PI * List.nth i fs 0%R))) ->
  exists P W, linear_power (dv_sim d) (2 * PI * List.nth i fs 0%R) dir center width P /\
    dv_dict d "W_in" = Some (VNum W) /\ List.nth i l None = ratio P W.
Proof.
  intros e dir c wd Nf df d d' fs l He Hq H i Hi HA. apply C97_scan_values in H as (_ & _ & _ & _ & s1 & F & E1 & H).
  destruct (H i Hi) as (t & [[ga gb] GX] & cv & P & W & A & B & C & D). set (s := at_omega (dv_sim d) (2 * PI * List.nth i fs 0%R)) in *.
  exists P, W. split; [|auto]. assert (N : no_nonlinearity s) by exact Hq.
  unfold solve_fields_nl in A. destruct (run_solver_nl _ _ _ _ _ _ s) as [s2 [[F2 c2]|]] eqn:E; [|discriminate]. injection A as <- -> _.
  assert (L := run_solver_lin _ _ _ _ _ _ _ _ _ _ He N HA ltac:(auto) E). apply run_solver_nl_step in E as [E _].
  assert (EP : s_pol s2 = s_pol (dv_sim d)) by (unfold same_problem in E; intuition).
  exists (upd_fields (store3 (s_pol s2) (s_fields_nl s2) (ga, gb, GX)) s2), ga, gb, GX.
  split; [exact L|]. split; [exact E|]. split; [exists (s_fields_nl s2); rewrite <- EP; reflexivity|]. exact B.
Qed.

(** ** The low-power probes *)

Lemma nl_keeps_unset e E0 thr n s t F c : solve_fields_nl e false (Some E0) "hybrid" thr n s = (t, Ok (F, c)) -> s_fields t = s_fields s.
Proof.
  intro H. unfold solve_fields_nl in H. destruct (run_solver_nl _ _ _ _ _ _ s) as [s2 [[F2 c2]|]] eqn:E; [|discriminate]. injection H as <- _ _.
  cbn [upd_fields_nl s_fields]. unfold run_solver_nl in E. cbn [String.eqb Ascii.eqb Bool.eqb] in E.
  destruct (born_solve e (Some E0) thr 20 false s) as [s1 [[F1 c1]|]] eqn:B; [|discriminate].
  assert (K : s_fields s1 = s_fields s).
  { unfold born_solve, start_field in B. destruct (born_loop e thr 20 E0 s) as [s3 [[[F3|] l3]|]] eqn:E3; try discriminate. injection B as <- _ _. apply born_loop_keeps in E3. apply E3. }
  destruct (last_conv c1) as [x|]; [|discriminate]. destruct (xgt x _); [|injection E as <- _ _; exact K].
  apply newton_solve_some_keeps in E. rewrite <- K. apply E.
Qed.

(** The spectrum of the linear fields is never returned: the simulation of a new frequency has no
    linear fields, and the solve that is made stores the nonlinear ones only. *)
Theorem C97_low_power_scan_raises :
  forall e dir center width Nf df d d' r, (1 <= Nf)%nat ->
  spectrum_scan e (flux_at dir center width false) Nf df d = (d', r) -> exists x, r = Raise x.
Proof.
  intros e dir c wd Nf df d d' r HN H. apply scan_inv in H as [HK [(_ & Q)|(s1 & F & r1 & E1 & -> & E2 & Q)]]; [eauto|].
  destruct r1 as [l1|]; [|eauto]. exfalso. apply spectrum_loop_spec in E2 as [_ E2]. destruct (E2 l1 eq_refl) as [_ L2]. rewrite map_length, seq_length in L2.
  destruct (L2 0%nat HN) as (t & G & cv & w & W & A & B & _). apply nl_keeps_unset in A. unfold flux_at in B. cbn [snd] in B. unfold flux_probe in B. rewrite A in B.
  destruct (line_inds dir c wd) as [[[[i0 i1] j0] j1]|]; discriminate.
Qed.
(** The exception is a TypeError whenever the solves go through. *)
Theorem C97_low_power_scan_TypeError :
  forall e dir center width Nf df d d' r, (1 <= Nf)%nat -> (dir = "x" \/ dir = "y") ->
  e_pardiso e = true -> s_pol (dv_sim d) = PolEz -> nd_size (s_src (dv_sim d)) = s_M (dv_sim d) ->
  nd_size (s_src (dv_sim d)) = nd_size (s_eps (dv_sim d)) ->
  spectrum_scan e (flux_at dir center width false) Nf df d = (d', r) -> r = Raise TypeError.
Proof.
  intros e dir c wd Nf df d d' r HN HD He Hp Hs Hs2 H. apply scan_inv in H as [HK [(Q & _)|(s1 & F & r1 & E1 & -> & E2 & Q)]]; [contradiction|].
  enough (r1 = Raise TypeError) by (subst r1; exact Q). clear Q.
  destruct (List.map (scan_freq (s_omega (dv_sim d)) df Nf) (List.seq 0 Nf)) as [|f fs] eqn:EF.
  { apply (f_equal (@List.length R)) in EF. rewrite map_length, seq_length in EF. cbn in EF. lia. }
  cbn [spectrum_loop dv_sim] in E2. destruct (lin_state _ _ _ _ E1) as [fd ->].
  change (set_eps (s_eps (upd_fields fd (dv_sim d))) (upd_omega (2 * PI * f) (upd_fields fd (dv_sim d)))) with (at_omega (dv_sim d) (2 * PI * f)) in E2.
  set (s := at_omega (dv_sim d) (2 * PI * f)) in *.
  destruct (proj1 (proj2 (C33_solvers_run_partial e s false (Some (snd F)) (1 / 10 ^ 10)%R 50 Hs2 ltac:(lia))) Hp He) as (_ & t & G & cv & A). rewrite A in E2.
  apply nl_keeps_unset in A. unfold flux_at, flux_probe in E2. rewrite A in E2.
  destruct HD as [-> | ->]; cbn [line_inds String.eqb Ascii.eqb Bool.eqb] in E2; injection E2 as <-; reflexivity.
Qed.

(** ** get_spectrum *)

Lemma scan_ext e p q Nf df d : (forall s, snd (p s) = snd (q s)) -> spectrum_scan e p Nf df d = spectrum_scan e q Nf df d.
Proof.
  intro H. unfold spectrum_scan, bind, getS, on_sim, ret. destruct (solve_fields e false false (dv_sim d)) as [s1 [F|x]]; [|reflexivity].
  assert (K : forall fs d, spectrum_loop e p (snd F) fs d = spectrum_loop e q (snd F) fs d).
  { induction fs as [|f fs IH]; intro d0; [reflexivity|]. cbn [spectrum_loop]. destruct (solve_fields_nl _ _ _ _ _ _ _) as [t [[G c]|]]; [|reflexivity].
    specialize (H t). destruct (p t) as [? [w|]], (q t) as [? [w'|]]; cbn in H; try discriminate; injection H as <-; [|reflexivity].
    unfold bind. destruct (over_W_in w d0) as [d1 [x|]]; [|reflexivity]. rewrite IH. reflexivity. }
  rewrite K. reflexivity.
Qed.

(** get_spectrum returns for no device: two_port fails at the low-power probe, ortho_port names a probe
    that is not defined, and three_port (or any other string) has no probes.  In each case the device
    is kept. *)
Theorem C97_get_spectrum_never_returns :
  forall e d d' r, get_spectrum e d = (d', r) ->
  device_kept d d' /\ exists x, r = Raise x /\
  forall ty, dv_dict d "structure_type" = Some (VStr ty) ->
    (ty = "ortho_port" -> x = NameError) /\ (ty <> "two_port" -> ty <> "ortho_port" -> x = UnboundLocalError).
Proof.
  intros e d d' r H. unfold get_spectrum, get_type in H.
  destruct (dv_dict d "structure_type") as [v|] eqn:ET.
  2:{ unfold bind, getattr, raise in H. rewrite ET in H. injection H as <- <-. split; [apply device_kept_refl|]. eexists. split; [reflexivity|discriminate]. }
  unfold bind at 1 2, getattr, ret in H. rewrite ET in H.
  set (ty := match v with VStr s => s | _ => "" end) in H.
  enough (K : device_kept d d' /\ exists x, r = Raise x /\ (ty = "ortho_port" -> x = NameError) /\ (ty <> "two_port" -> ty <> "ortho_port" -> x = UnboundLocalError)).
  { destruct K as [K1 (x & K2 & K3)]. split; [exact K1|]. exists x. split; [exact K2|]. intros ty0 Q. injection Q as ->. exact K3. }
  clearbody ty. clear ET v. revert H. destruct (String.eqb_spec ty "two_port") as [N1|N1]; intro H; [subst ty|].
  - unfold bind, getS, spectra_loop in H. destruct (spectrum_scan e (spectrum_probe d args_two_out false) 300 (1 / 200) d) as [d1 r1] eqn:E1.
    assert (K := proj1 (scan_inv _ _ _ _ _ _ _ E1)).
    enough (exists x, r1 = Raise x) as [x ->]. { unfold bind in H. rewrite E1 in H. injection H as <- <-. split; [exact K|]. exists x. split; [reflexivity|]. split; [discriminate|contradiction]. }
    destruct (snd (args_two_out d)) as [[[dir c] w]|x] eqn:EA.
    + rewrite (scan_ext _ _ (flux_at dir c w false)) in E1 by (intro s; unfold spectrum_probe, flux_at; rewrite EA; reflexivity).
      eapply C97_low_power_scan_raises; [|exact E1]. lia.
    + apply scan_inv in E1 as [_ [(_ & Q)|(s1 & F & r2 & _ & -> & E2 & Q)]]; [eauto|]. destruct r2 as [l|]; [|eauto]. exfalso.
      apply spectrum_loop_spec in E2 as [_ E2]. destruct (E2 l eq_refl) as [_ L2]. rewrite map_length, seq_length in L2.
      destruct (L2 0%nat ltac:(lia)) as (t & G & cv & w & W & _ & B & _). unfold spectrum_probe in B. rewrite EA in B. discriminate.
  - revert H. destruct (String.eqb_spec ty "ortho_port") as [N2|N2]; intro H; injection H as <- <-; (split; [apply device_kept_refl|]); eexists; (split; [reflexivity|]); split; intros; congruence.
Qed.

(** A probe of the nonlinear fields inside the grid works for every device with a recorded input
    power: the scan then returns. *)
Theorem C97_high_power_scan_returns :
  forall e c0 c1 w lo hi Nf df d W,
  e_pardiso e = true -> s_pol (dv_sim d) = PolEz ->
  s_Nx (dv_sim d) = nd_nx (s_eps (dv_sim d)) -> s_Ny (dv_sim d) = nd_ny (s_eps (dv_sim d)) -> nd_size (s_src (dv_sim d)) = s_M (dv_sim d) ->
  dv_dict d "W_in" = Some (VNum W) ->
  Z.quot (2 * c1 - w) 2 = Z.of_nat lo -> Z.quot (2 * c1 + w) 2 = Z.of_nat hi ->
  (0 <= c0)%Z -> (c0 + 1 < Z.of_nat (s_Nx (dv_sim d)))%Z -> (lo <= hi)%nat -> (hi < s_Ny (dv_sim d))%nat ->
  exists d' fs l, spectrum_scan e (flux_at "x" (c0, c1) w true) Nf df d = (d', Ok (fs, l)).
Proof.
  intros e c0 c1 w lo hi Nf df d W He Hp HX HY Hs HW H1 H2 H3 H4 H5 H6.
  destruct (solve_fields_lin e false (dv_sim d) Hs) as (X & _ & E). cbv zeta in E.
  unfold spectrum_scan, bind, getS, on_sim. rewrite E. clear E.
  set (d1 := mkDev _ _ _ _). match goal with |- context [spectrum_loop e _ ?E0 ?fs d1] => set (E1 := E0); generalize fs end. intro fs0. clearbody E1.
  enough (K : exists l, spectrum_loop e (flux_at "x" (c0, c1) w true) E1 fs0 d1 = (d1, Ok l)). { destruct K as [l ->]. eexists. eexists. eexists. reflexivity. }
  induction fs0 as [|f fs0 [l IH]]; [eexists; reflexivity|]. cbn [spectrum_loop].
  change (set_eps (s_eps (dv_sim d1)) (upd_omega (2 * PI * f) (dv_sim d1))) with (at_omega (dv_sim d) (2 * PI * f)). set (s := at_omega (dv_sim d) (2 * PI * f)).
  assert (Z1 : nd_size (s_src s) = s_M s). { change (s_src s) with (s_src (dv_sim d)). rewrite Hs. unfold s_M. rewrite HX, HY. reflexivity. }
  destruct (proj1 (proj2 (C33_solvers_run_partial e s false (Some E1) (1 / 10 ^ 10)%R 50 Z1 ltac:(lia))) Hp He) as (_ & t & [[ga gb] GX] & cv & A). rewrite A.
  unfold solve_fields_nl in A. destruct (run_solver_nl _ _ _ _ _ _ s) as [s2 [[F2 c2]|]] eqn:E; [|discriminate]. injection A as <- -> _.
  apply run_solver_nl_step in E as [E _].
  assert (G : s_pol s2 = PolEz /\ s_Nx s2 = s_Nx (dv_sim d) /\ s_Ny s2 = s_Ny (dv_sim d)).
  { assert (Q1 : s_pol s = PolEz) by exact Hp. assert (Q2 : s_Nx s = nd_nx (s_eps (dv_sim d))) by reflexivity. assert (Q3 : s_Ny s = nd_ny (s_eps (dv_sim d))) by reflexivity.
    clearbody s. unfold same_problem in E. intuition congruence. }
  destruct G as (G1 & G2 & G3). unfold flux_at at 1.
  assert (FX := flux_x_inside (upd_fields_nl (store3 (s_pol s2) (s_fields_nl s2) (ga, gb, GX)) s2) true GX gb c0 c1 w lo hi).
  cbn [upd_fields_nl s_fields_nl s_pol s_Nx s_Ny] in FX. rewrite FX; try assumption.
  - unfold bind, over_W_in, getattr, lift, ret, bind. cbn [dv_dict d1]. rewrite HW. fold d1. rewrite IH. eexists. reflexivity.
  - rewrite G1. reflexivity.
  - rewrite G1. reflexivity.
  - rewrite G2. exact H4.
  - rewrite G3. exact H6.
Qed.

(** The device of C91_met after generate_data, its output probe *)
Example C97_met : exists e d W, dev_history e d /\ solver_exact e /\ no_nonlinearity (dv_sim d) /\ dv_dict d "structure_type" = Some (VStr "two_port") /\
  dv_dict d "W_in" = Some (VNum W) /\ (forall Nf df, exists d' fs l, spectrum_scan e (flux_at "x" (5, 3)%Z 3 true) Nf df d = (d', Ok (fs, l))) /\
  (forall Nf df, (1 <= Nf)%nat -> snd (spectrum_scan e (flux_at "x" (5, 3)%Z 3 false) Nf df d) = Raise TypeError).
Proof.
  destruct device_example as (e & s & o & d & d1 & d2 & d3 & He & Hq & _ & _ & _ & _ & _ & HD & _ & EO & S2 & HP & HG & H & T & _ & _ & P & X & Y & EE & SZ & PA).
  assert (R0 : dev_history e d) by (eapply dh_new; exact HD).
  assert (R1 := dh_call e (CallParameters 1 1 [0%Z; 0%Z] 0 2 1) _ R0). cbn [call] in R1. rewrite HP in R1.
  assert (R2 := dh_call e (CallGeometry "two_port" [VNum 1; VNum 6; VNum 3; VNum 8; VNum 0; VNum 1; VInts [0%Z; 0%Z]; VArray (fun _ => 2%R)]) _ R1). cbn [call] in R2. cbn [fst] in R2. rewrite HG in R2.
  assert (R3 := dh_call e (CallGenerate 3 1 1 10) _ R2). cbn [call fst] in R3. rewrite H in R3. cbn [fst] in R3.
  destruct (generate_ok _ _ _ _ _ _ _ (history_inv _ _ R2) H) as (_ & _ & x1 & x2 & x3 & x4 & H1 & H2 & H3 & H4 & E5 & _).
  assert (K : same_problem s (dv_sim d3)).
  { rewrite E5. cbn [dv_sim]. eapply same_trans; [exact S2|]. eapply same_trans; [exact (keeps_shift _ _ _ _ H1)|]. eapply same_trans; [exact (keeps_trans _ _ _ H2)|].
    eapply same_trans; [exact (keeps_freq _ _ _ _ _ H3)|exact (keeps_power _ _ _ _ _ _ _ H4)]. }
  destruct (only_shift e _ _ _ H1) as [O1 _]. destruct (only_freq e 3 _ _ _ H3) as [O3 _]. destruct (only_power e 1 1 10 _ _ _ H4) as [O4 _]. destruct (only_trans _ _ _ H2) as [O2 _].
  assert (T3 : dv_dict d3 "structure_type" = Some (VStr "two_port")).
  { rewrite E5. cbn [dv_dict String.eqb Ascii.eqb Bool.eqb]. rewrite O4, O3, O2, O1 by isnt. exact T. }
  assert (WW : exists W, dv_dict d3 "W_in" = Some (VNum W)).
  { assert (T1 : dv_dict x1 "structure_type" = Some (VStr "two_port")) by (rewrite O1 by isnt; exact T). unfold calc_transmissions, get_type, bind, getattr, ret in H2. rewrite T1 in H2. cbn [String.eqb Ascii.eqb Bool.eqb] in H2. apply trans_two_ok in H2 as (W & wl & wn & _ & _ & _ & B & _).
    exists W. rewrite E5. cbn [dv_dict String.eqb Ascii.eqb Bool.eqb]. rewrite O4, O3 by isnt. exact B. }
  destruct WW as [W HW]. exists e, d3, W. split; [exact R3|]. split; [exact He|]. split; [eapply no_nl_same; eassumption|]. split; [exact T3|]. split; [exact HW|].
  destruct (same_system _ _ K) as (M1 & _ & P1 & _).
  assert (Q : s_Nx (dv_sim d3) = 9%nat /\ s_Ny (dv_sim d3) = 6%nat /\ s_eps (dv_sim d3) = mkNd 9 6 two_eps /\ s_src (dv_sim d3) = s_src s) by (unfold same_problem in K; intuition congruence).
  destruct Q as (Q1 & Q2 & Q3 & Q4). assert (Q5 : nd_size (s_src (dv_sim d3)) = s_M (dv_sim d3)) by congruence. split.
  - intros Nf df. apply (C97_high_power_scan_returns e 5 3 3 1 4 Nf df d3 W); try (rewrite ?Q1, ?Q2, ?Q3; reflexivity || lia || congruence).
  - intros Nf df HN. destruct (spectrum_scan _ _ _ _ _) as [d' r] eqn:E. apply C97_low_power_scan_TypeError in E; auto; [congruence|]. rewrite Q5. unfold s_M. rewrite Q1, Q2, Q3. reflexivity.
Qed.

(** ** What a new simulation holds, and what a frequency sample is *)
(** A new simulation holds what it was given, no source, no modes, no nonlinearity, no fields, and no nonlinear values. *)
Theorem C67_new_simulation : forall omega eps dl np p L0 s, Simulation omega eps dl np p L0 = Ok s ->
  s_omega s = omega /\ s_eps s = eps /\ s_dl s = dl /\ s_L0 s = L0 /\ s_Nx s = nd_nx eps /\ s_Ny s = nd_ny eps /\ (s_pol s = PolEz <-> p = "Ez") /\ (s_pol s = PolHz <-> p = "Hz") /\
  nd_nx (s_src s) = nd_nx eps /\ nd_ny (s_src s) = nd_ny eps /\ (forall k, nd_buf (s_src s) k = RtoC 0) /\
  s_modes s = [] /\ s_nl s = [] /\ (forall c, s_fields s c = None) /\ (forall c, s_fields_nl s c = None) /\
  (forall k, s_eps_nl s k = 0%R) /\ (forall k, s_dnl_de s k = RtoC 0) /\ (forall k, s_dnl_deps s k = 0%R).
Proof.
  intros omega eps dl np p L0 s H. unfold Simulation in H. destruct (check_inputs L0 omega np p) eqn:HC; [|discriminate]. injection H as <-.
  assert (HP : p = "Ez" \/ p = "Hz").
  { unfold check_inputs in HC. repeat (apply andb_prop in HC as [HC ?]). match goal with H : (_ || _)%bool = true |- _ => apply orb_prop in H as [H|H]; apply String.eqb_eq in H end; auto. }
  repeat (split; [try reflexivity; try (destruct HP as [-> | ->]; cbn; split; congruence)|]). reflexivity.
Qed.
(** The simulation a frequency scan evaluates is the one the constructor would make at that frequency, with the source, the nonlinearities and the modes put back. *)
Theorem C50_sample_is_a_new_simulation : forall omega w eps dl np p L0 s s' src ms nl, Simulation omega eps dl np p L0 = Ok s -> Simulation w eps dl np p L0 = Ok s' ->
  at_omega (upd_src src (upd_modes ms (upd_nl nl s))) w = upd_src src (upd_modes ms (upd_nl nl s')).
Proof.
  intros omega w eps dl np p L0 s s' src ms nl H H'. unfold Simulation in H, H'. destruct (check_inputs L0 omega np p); [|discriminate]. destruct (check_inputs L0 w np p); [|discriminate].
  injection H as <-. injection H' as <-. reflexivity.
Qed.
