(** C78: strength of the PML. *)
From Coq Require Import Reals Lra Lia List ZArith Arith Bool String.
From Coquelicot Require Import Coquelicot.
From Verif Require Import Base Linear MCore MSim Spec PCore PSim PEx PropsCore.
Import ListNotations.
Local Open Scope R_scope.

(** *** Specification *)
(** vacuum wave number at angular frequency omega, lengths in units of L0 *)
Definition wave_number (omega L0 : R) : R := omega * L0 * sqrt (MU_0 * EPSILON_0).
(** A wave at normal incidence that crosses a layer with stretch factor s(l) twice is
    attenuated by exp(- attenuation): twice the wave number times the integral of -Im s. *)
Definition attenuation (omega L0 dw : R) (s : R -> C) : R :=
  2 * wave_number omega L0 * RInt (fun l => - Im (s l)) 0 dw.
(** the same on the grid: pixels first .. first + n - 1 of an axis with cells of size dl *)
Definition grid_attenuation (omega L0 dl : R) (sf : nat -> C) (first n : nat) : R :=
  2 * wave_number omega L0 * (dl * rsum n (fun i => - Im (sf (first + i)%nat))).
(** the design value of the code: a reflection of exp(-12) *)
Definition designed : R := 12.

(** *** Lemmas *)
Lemma Sfac_Im l dw omega L0 : 0 < omega -> 0 < L0 -> - Im (Sfac l dw omega L0) = sig_w l dw / (omega * EPSILON_0 * L0).
Proof.
  intros Ho HL. assert (HE := EPSILON_0_pos). unfold Sfac.
  assert (Hd: omega * EPSILON_0 * L0 <> 0) by (assert (0 < omega * EPSILON_0 * L0) by (apply Rmult_lt_0_compat; [apply Rmult_lt_0_compat|]; assumption); lra).
  replace (RtoC 1 - Ci * RtoC (sig_w l dw) / RtoC (omega * EPSILON_0 * L0))%C with ((1, - (sig_w l dw / (omega * EPSILON_0 * L0))) : C).
  - simpl. ring.
  - apply injective_projections; simpl; field; repeat split; lra.
Qed.
Lemma eta_eps : sqrt (MU_0 * EPSILON_0) = ETA_0 * EPSILON_0.
Proof.
  assert (HE := EPSILON_0_pos). assert (HM := MU_0_pos). unfold ETA_0.
  rewrite <- (sqrt_Rsqr EPSILON_0) at 3 by lra. rewrite <- sqrt_mult.
  - f_equal. unfold Rsqr. field. lra.
  - apply Rlt_le, Rdiv_lt_0_compat; assumption.
  - apply Rle_0_sqr.
Qed.
Lemma wave_sig l dw omega L0 : 0 < omega -> 0 < L0 ->
  wave_number omega L0 * - Im (Sfac l dw omega L0) = ETA_0 * sig_w l dw.
Proof.
  intros Ho HL. assert (HE := EPSILON_0_pos). rewrite Sfac_Im by assumption. unfold wave_number. rewrite eta_eps. field. repeat split; lra.
Qed.
Lemma sig_eq l dw : 0 < dw -> 2 * ETA_0 * sig_w l dw = 60 * l ^ 4 / dw ^ 5.
Proof. intro H. assert (HE := ETA_0_pos). unfold sig_w. field. lra. Qed.
Lemma sum_mid n : rsum n (fun j => (INR j + 1 / 2) ^ 4) <= INR n ^ 5 / 5.
Proof.
  induction n as [|n IH]; [simpl; lra|]. cbn [rsum]. rewrite S_INR. assert (0 <= INR n) by apply pos_INR. set (x := INR n) in *.
  assert (0 <= x * x) by nra. assert ((x + 1) ^ 5 / 5 - x ^ 5 / 5 - (x + 1 / 2) ^ 4 = x * x / 2 + x / 2 + (1 / 5 - 1 / 16)) by field. lra.
Qed.
Lemma sum_mid_low n : INR n ^ 5 / 5 < rsum (S n) (fun j => (INR j + 1 / 2) ^ 4).
Proof.
  induction n as [|n IH]; [simpl; lra|]. remember (S n) as m. cbn [rsum]. subst m. rewrite S_INR. assert (0 <= INR n) by apply pos_INR. set (x := INR n) in *.
  assert (0 <= x * x) by nra. assert (0 <= x * (x * x)) by nra. assert ((x + 1 + 1 / 2) ^ 4 - ((x + 1) ^ 5 / 5 - x ^ 5 / 5) = 4 * (x * (x * x)) + (27 / 2 - 2) * (x * x) + (27 / 2 - 1) * x + (81 / 16 - 1 / 5)) by field. lra.
Qed.
Lemma sum_right_low n : INR n ^ 5 / 5 < rsum (S n) (fun j => (INR j + 1) ^ 4).
Proof.
  apply Rlt_le_trans with (1 := sum_mid_low n). apply rsum_le. intros j _. assert (0 <= INR j) by apply pos_INR. apply pow_incr. lra.
Qed.
Lemma sum_left n : rsum n (fun j => INR j ^ 4) <= INR n ^ 5 / 5.
Proof.
  apply Rle_trans with (2 := sum_mid n). apply rsum_le. intros j _. assert (0 <= INR j) by apply pos_INR. apply pow_incr. lra.
Qed.

(** * C78 *)
(** The continuous profile has the designed strength, at any frequency, thickness and
    length scale. *)
Theorem C78_profile_has_designed_strength :
  forall omega L0 dw, 0 < omega -> 0 < L0 -> 0 < dw ->
  attenuation omega L0 dw (fun l => Sfac l dw omega L0) = designed.
Proof.
  intros omega L0 dw Ho HL Hd. assert (HE := EPSILON_0_pos). assert (HN := ETA_0_pos). unfold attenuation, designed.
  assert (I: is_RInt (fun l => - Im (Sfac l dw omega L0)) 0 dw (12 / (2 * wave_number omega L0))).
  { assert (W: wave_number omega L0 <> 0).
    { unfold wave_number. rewrite eta_eps. assert (0 < omega * L0 * (ETA_0 * EPSILON_0)) by (apply Rmult_lt_0_compat; apply Rmult_lt_0_compat; assumption); lra. }
    set (F := fun l : R => 12 * l ^ 5 / dw ^ 5 / (2 * wave_number omega L0)).
    replace (12 / (2 * wave_number omega L0)) with (minus (F dw) (F 0)).
    2:{ unfold F, minus, plus, opp. simpl. field. split; lra. }
    apply (is_RInt_derive F).
    - intros x _. replace (- Im (Sfac x dw omega L0)) with (60 * x ^ 4 / dw ^ 5 / (2 * wave_number omega L0)).
      + unfold F. auto_derive; [exact I|]. field. split; lra.
      + rewrite <- sig_eq by assumption. replace (2 * ETA_0 * sig_w x dw) with (2 * (ETA_0 * sig_w x dw)) by ring.
        rewrite <- (wave_sig x dw omega L0) by assumption. field. assumption.
    - intros x _. apply (continuous_ext (fun l => 60 * l ^ 4 / dw ^ 5 / (2 * wave_number omega L0))).
      + intro y. match goal with |- @eq _ ?a ?b => change (@eq R a b) end. rewrite <- sig_eq by assumption. replace (2 * ETA_0 * sig_w y dw) with (2 * (ETA_0 * sig_w y dw)) by ring.
        rewrite <- (wave_sig y dw omega L0) by assumption. field. assumption.
      + apply (ex_derive_continuous (fun l => 60 * l ^ 4 / dw ^ 5 / (2 * wave_number omega L0))). auto_derive. exact I. }
  rewrite (is_RInt_unique _ _ _ _ I). unfold wave_number. rewrite eta_eps. field. repeat split; lra.
Qed.

Lemma layer_sum omega L0 dl N (sf : nat -> C) first n (pos : nat -> R) :
  0 < omega -> 0 < L0 -> 0 < dl -> (1 <= N)%nat ->
  (forall i, (i < n)%nat -> sf (first + i)%nat = Sfac (dl * pos i) (INR N * dl) omega L0) ->
  grid_attenuation omega L0 dl sf first n = 60 / INR N ^ 5 * rsum n (fun i => pos i ^ 4).
Proof.
  intros Ho HL Hd HN H. assert (HI: 0 < INR N) by (apply lt_0_INR; lia). unfold grid_attenuation.
  rewrite <- rsum_scal. replace (2 * wave_number omega L0 * rsum n (fun k => dl * - Im (sf (first + k)%nat)))
    with (rsum n (fun k => 2 * wave_number omega L0 * (dl * - Im (sf (first + k)%nat)))) by apply rsum_scal.
  rewrite <- rsum_scal. apply rsum_ext. intros i Hi. rewrite H by assumption.
  replace (2 * wave_number omega L0 * (dl * - Im (Sfac (dl * pos i) (INR N * dl) omega L0)))
    with (dl * (2 * (wave_number omega L0 * - Im (Sfac (dl * pos i) (INR N * dl) omega L0)))) by ring.
  rewrite wave_sig by assumption. replace (2 * (ETA_0 * sig_w (dl * pos i) (INR N * dl))) with (2 * ETA_0 * sig_w (dl * pos i) (INR N * dl)) by ring.
  rewrite sig_eq by (apply Rmult_lt_0_compat; assumption). field. lra.
Qed.
(** the low layer (pixels 0..N) and the high layer (pixels Nw-N..Nw-1) of an axis *)
Definition layer_strengths (omega L0 dl : R) (Nw N : nat) (sf : nat -> C) : Prop :=
  designed < grid_attenuation omega L0 dl sf 0 (N + 1) /\
  grid_attenuation omega L0 dl sf (Nw - N) N <= designed * ((INR N - 1) / INR N) ^ 5.
Lemma layers range L0 sd omega Nw N dl : 0 < omega -> 0 < L0 -> 0 < dl -> (1 <= N)%nat -> (2 * N < Nw)%nat ->
  (snd range - fst range) / INR Nw = dl ->
  layer_strengths omega L0 dl Nw N (create_sfactor range L0 sd omega Nw N).
Proof.
  intros Ho HL Hd HN HW Hh. assert (HI: 0 < INR N) by (apply lt_0_INR; lia).
  assert (HP: 0 < 60 / INR N ^ 5) by (apply Rdiv_lt_0_compat; [lra|apply pow_lt; assumption]).
  set (a := match sd with Fwd => 0.5 | Bwd => 1 end). unfold layer_strengths, designed. split.
  - rewrite (layer_sum omega L0 dl N _ 0 (N + 1) (fun i => INR N - INR i + a)) by
      (try assumption; intros i Hi; rewrite sfactor_low by lia; rewrite Hh; reflexivity).
    replace 12 with (60 / INR N ^ 5 * (INR N ^ 5 / 5)) by (field; lra). apply Rmult_lt_compat_l; [assumption|].
    rewrite rsum_rev. replace (N + 1)%nat with (S N) by lia.
    rewrite (rsum_ext _ _ (fun j => (INR j + a) ^ 4)).
    + unfold a. destruct sd; [|apply sum_right_low]. replace 0.5 with (1 / 2) by lra. apply sum_mid_low.
    + intros k Hk. f_equal. replace (S N - 1 - k)%nat with (N - k)%nat by lia. rewrite minus_INR by lia. ring.
  - assert (Q: grid_attenuation omega L0 dl (create_sfactor range L0 sd omega Nw N) (Nw - N) N
      = grid_attenuation omega L0 dl (create_sfactor range L0 sd omega Nw N) (Nw - N + 1) (N - 1)).
    { unfold grid_attenuation. do 2 f_equal. destruct N as [|m]; [lia|]. rewrite rsum_S_first. replace (S m - 1)%nat with m by lia.
      replace (create_sfactor range L0 sd omega Nw (S m) (Nw - S m + 0)%nat) with (RtoC 1).
      - simpl (Im (RtoC 1)). rewrite Ropp_0, Rplus_0_l. apply rsum_ext. intros k _. do 3 f_equal. lia.
      - symmetry. unfold create_sfactor. destruct (Nat.ltb_spec (S m) 1); [lia|]. destruct (Nat.leb_spec (Nw - S m + 0) (S m)); [lia|].
        destruct (Z.ltb_spec (Z.of_nat Nw - Z.of_nat (S m)) (Z.of_nat (Nw - S m + 0))); [lia|]. destruct sd; reflexivity. }
    rewrite Q. rewrite (layer_sum omega L0 dl N _ _ (N - 1) (fun i => INR i + (1 - a))) by
      (try assumption; intros i Hi; rewrite sfactor_high by lia; rewrite Hh; f_equal; fold a; rewrite !plus_INR, minus_INR by lia; simpl (INR 1); f_equal; ring).
    replace (12 * ((INR N - 1) / INR N) ^ 5) with (60 / INR N ^ 5 * ((INR N - 1) ^ 5 / 5)) by (field; lra).
    apply Rmult_le_compat_l; [lra|]. replace (INR N - 1) with (INR (N - 1)) by (rewrite minus_INR by lia; simpl; ring).
    unfold a. destruct sd.
    + rewrite (rsum_ext _ _ (fun j => (INR j + 1 / 2) ^ 4)); [apply sum_mid|]. intros k _. f_equal. lra.
    + rewrite (rsum_ext _ _ (fun j => INR j ^ 4)); [apply sum_left|]. intros k _. f_equal. lra.
Qed.
(** On the grid the layer at the low end of each axis is stronger than designed and the one
    at the high end weaker, by at least the factor ((N-1)/N)^5, for every simulation. *)
Theorem C78_layers_partial :
  forall omega eps dl nx ny p L0 s, 0 < dl ->
  let Nx := nd_nx eps in let Ny := nd_ny eps in
  (1 <= nx)%nat -> (2 * nx < Nx)%nat -> (1 <= ny)%nat -> (2 * ny < Ny)%nat ->
  Simulation omega eps dl (Some [Z.of_nat nx; Z.of_nat ny]) p L0 = Ok s ->
  exists sxf sxb syf syb : nat -> C,
    stretched_by s dl Nx Ny sxf sxb syf syb /\
    layer_strengths omega L0 dl Nx nx sxf /\ layer_strengths omega L0 dl Nx nx sxb /\
    layer_strengths omega L0 dl Ny ny syf /\ layer_strengths omega L0 dl Ny ny syb.
Proof.
  intros omega eps dl nx ny p L0 s Hdl Nx Ny A1 A2 A3 A4 HS.
  destruct (pml_operators omega eps dl nx ny p L0 s Hdl ltac:(fold Nx; lia) ltac:(fold Ny; lia) HS) as (Ho & HL & Hx & Hy & HO).
  fold Nx Ny in HO. assert (HX: 0 < INR Nx) by (apply lt_0_INR; lia). assert (HY: 0 < INR Ny) by (apply lt_0_INR; lia).
  do 4 eexists. split; [exact HO|]. repeat split; apply layers; try assumption; cbn [fst snd]; field; lra.
Qed.
(** hence no simulation with PML has a high-end layer of the designed strength *)
Definition C78_property (omega L0 dl : R) (s : sim) (Nx Ny nx ny : nat) : Prop :=
  forall sxf sxb syf syb : nat -> C, stretched_by s dl Nx Ny sxf sxb syf syb ->
    designed <= grid_attenuation omega L0 dl sxf (Nx - nx) nx.
Theorem C78_high_end_refuted :
  forall omega eps dl nx ny p L0 s, 0 < dl ->
  let Nx := nd_nx eps in let Ny := nd_ny eps in
  (1 <= nx)%nat -> (2 * nx < Nx)%nat -> (1 <= ny)%nat -> (2 * ny < Ny)%nat ->
  Simulation omega eps dl (Some [Z.of_nat nx; Z.of_nat ny]) p L0 = Ok s ->
  ~ C78_property omega L0 dl s Nx Ny nx ny.
Proof.
  intros omega eps dl nx ny p L0 s Hdl Nx Ny A1 A2 A3 A4 HS HP.
  destruct (C78_layers_partial _ _ _ _ _ _ _ _ Hdl A1 A2 A3 A4 HS) as (sxf & sxb & syf & syb & HO & [_ HH] & _).
  specialize (HP _ _ _ _ HO). assert (1 <= INR nx) by (apply le_INR in A1; simpl in A1; lra).
  assert (E: 0 <= (INR nx - 1) / INR nx < 1).
  { split; [apply Rmult_le_pos; [lra|left; apply Rinv_0_lt_compat; lra]|]. apply Rmult_lt_reg_r with (INR nx); [lra|]. unfold Rdiv. rewrite Rmult_assoc, Rinv_l by lra. lra. }
  assert (P: ((INR nx - 1) / INR nx) ^ 5 < 1) by (apply pow_lt_1_compat; [lra|lia]). unfold designed in *.
  apply (Rlt_irrefl 12). apply Rle_lt_trans with (1 := HP). apply Rle_lt_trans with (1 := HH). lra.
Qed.
(** with the usual 10 pixels the high-end layer is below 7.1 instead of 12 *)
Example C78_met : designed * ((INR 10 - 1) / INR 10) ^ 5 < 7.1 /\ (2 * 10 < 100)%nat /\ 0 < ex_omega.
Proof. split; [unfold designed; simpl INR; lra|]. split; [lia|apply ex_omega_pos]. Qed.
