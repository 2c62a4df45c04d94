(** C125: the analysis of the nonlinear example. *)
From Coq Require Import Reals Lra Lia List ZArith Arith Bool String.
From Coquelicot Require Import Coquelicot.
From Verif Require Import Base Linear MCore MSim MConst MWidth Spec PCore PropsWave PropsUnits.
Local Open Scope R_scope.

Lemma rsum_sq_nonneg n (a : nat -> R) : 0 <= rsum n (fun j => a j ^ 2).
Proof. apply rsum_ge0. intros. apply pow2_ge_0. Qed.
Lemma sum_sq_le n (a : nat -> R) : (forall j, (j < n)%nat -> 0 <= a j) -> rsum n (fun j => a j ^ 2) <= rsum n a ^ 2.
Proof.
  induction n as [|n IH]; intro H; cbn [rsum]; [lra|]. specialize (IH ltac:(intros; apply H; lia)).
  assert (0 <= rsum n a) by (apply rsum_ge0; intros; apply H; lia). specialize (H n ltac:(lia)). nra.
Qed.
Lemma variance n (a : nat -> R) : (0 < n)%nat -> rsum n (fun j => (a j - rsum n a / INR n) ^ 2) = rsum n (fun j => a j ^ 2) - rsum n a ^ 2 / INR n.
Proof.
  intro Hn. assert (P: 0 < INR n) by (apply lt_0_INR; exact Hn). set (m := rsum n a / INR n).
  rewrite (rsum_ext n _ (fun j => a j ^ 2 - (2 * m * a j - m ^ 2))) by (intros; ring).
  rewrite !rsum_minus, rsum_scal, rsum_const. unfold m. field. lra.
Qed.
Lemma rsum_zero n (f : nat -> R) : (forall j, (j < n)%nat -> 0 <= f j) -> rsum n f = 0 -> forall j, (j < n)%nat -> f j = 0.
Proof.
  induction n as [|n IH]; intros H E j Hj; [lia|]. cbn [rsum] in E. assert (A: 0 <= rsum n f) by (apply rsum_ge0; intros; apply H; lia). assert (B := H n ltac:(lia)).
  destruct (Nat.eq_dec j n) as [->|]; [lra|]. apply IH; [intros; apply H; lia|lra|lia].
Qed.
Lemma fourth_positive Ny (F : vec) : (exists j, (j < Ny)%nat /\ F j <> RtoC 0) -> 0 < rsum Ny (fun j => Cmod (F j) ^ 4).
Proof.
  intros (j & Hj & Hn). assert (G: forall k, (k < Ny)%nat -> 0 <= Cmod (F k) ^ 4) by (intros; apply pow_le, Cmod_ge_0).
  destruct (Rle_lt_or_eq_dec 0 _ (rsum_ge0 Ny _ G)) as [H|H]; [exact H|]. exfalso.
  assert (Z := rsum_zero Ny _ G (eq_sym H) j Hj). apply Cmod_gt_0 in Hn. assert (0 < Cmod (F j) ^ 4) by (apply pow_lt; exact Hn). lra.
Qed.
(** The effective width of a profile that is not zero is at least one pixel and at most the number
    of pixels, with the number of pixels exactly for a flat profile. *)
Theorem C125_effective_width :
  forall Ny (F : vec), (exists j, (j < Ny)%nat /\ F j <> RtoC 0) ->
  1 <= width_eff Ny F <= INR Ny /\
  (width_eff Ny F = INR Ny <-> forall j k, (j < Ny)%nat -> (k < Ny)%nat -> Cmod (F j) = Cmod (F k)).
Proof.
  intros Ny F HF. assert (P4 := fourth_positive Ny F HF).
  assert (Hn: (0 < Ny)%nat) by (destruct HF as (j & Hj & _); lia). assert (P: 0 < INR Ny) by (apply lt_0_INR; exact Hn).
  set (a := fun j => Cmod (F j) ^ 2). assert (Ha: forall j, 0 <= a j) by (intro; apply pow2_ge_0).
  assert (E4: rsum Ny (fun j => Cmod (F j) ^ 4) = rsum Ny (fun j => a j ^ 2)) by (apply rsum_ext; intros; unfold a; ring).
  unfold width_eff. fold a. rewrite E4 in *. assert (V := variance Ny a Hn). assert (V0: 0 <= rsum Ny (fun j => (a j - rsum Ny a / INR Ny) ^ 2)) by apply (rsum_sq_nonneg Ny (fun j => a j - rsum Ny a / INR Ny)).
  assert (S := sum_sq_le Ny a (fun j _ => Ha j)). set (s1 := rsum Ny a) in *. change (rsum Ny (fun j => Cmod (F j) ^ 2)) with s1. set (s2 := rsum Ny (fun j => a j ^ 2)) in *.
  assert (U: s1 ^ 2 / INR Ny <= s2) by lra.
  assert (EU: s1 ^ 2 = s1 ^ 2 / INR Ny * INR Ny) by (field; lra).
  split; [split|split].
  - apply (Rmult_le_reg_r s2); [exact P4|]. replace (s1 ^ 2 / s2 * s2) with (s1 ^ 2) by (field; lra). lra.
  - apply (Rmult_le_reg_r s2); [exact P4|]. replace (s1 ^ 2 / s2 * s2) with (s1 ^ 2) by (field; lra). rewrite EU. rewrite (Rmult_comm (INR Ny)). apply Rmult_le_compat_r; lra.
  - intros E. assert (E1: s1 ^ 2 = INR Ny * s2) by (rewrite <- E; field; lra).
    assert (V1: rsum Ny (fun j => (a j - s1 / INR Ny) ^ 2) = 0) by (rewrite V, E1; field; lra).
    assert (K: forall j, (j < Ny)%nat -> a j = s1 / INR Ny). { intros j Hj. assert (Z := rsum_zero Ny _ ltac:(intros; apply pow2_ge_0) V1 j Hj). cbv beta in Z. assert (a j - s1 / INR Ny = 0) by nra. lra. }
    intros j k Hj Hk. assert (Q: a j = a k) by (rewrite !K by assumption; reflexivity). unfold a in Q. assert (Q1 := Cmod_ge_0 (F j)). assert (Q2 := Cmod_ge_0 (F k)). nra.
  - intros H. assert (K: forall j, (j < Ny)%nat -> a j = a 0%nat) by (intros j Hj; unfold a; rewrite (H j 0%nat Hj Hn); reflexivity).
    assert (E1: s1 = INR Ny * a 0%nat) by (unfold s1; rewrite (rsum_ext Ny a (fun _ => a 0%nat) K); apply rsum_const).
    assert (E2: s2 = INR Ny * a 0%nat ^ 2) by (unfold s2; rewrite (rsum_ext Ny _ (fun _ => a 0%nat ^ 2)) by (intros j Hj; rewrite (K j Hj); reflexivity); apply rsum_const).
    rewrite E1, E2 in *. assert (a 0%nat <> 0) by (intro Z; rewrite Z in P4; simpl in P4; lra). field. split; lra.
Qed.
(** A profile of constant modulus on some pixels, and zero elsewhere, has the number of these
    pixels as its effective width. *)
Theorem C125_plateau : forall Ny (F : vec) (on : nat -> bool) c, c <> 0 ->
  (forall j, (j < Ny)%nat -> Cmod (F j) = if on j then c else 0) -> (exists j, (j < Ny)%nat /\ on j = true) ->
  width_eff Ny F = rsum Ny (fun j => if on j then 1 else 0).
Proof.
  intros Ny F on c Hc H (j0 & Hj0 & H0). unfold width_eff.
  rewrite (rsum_ext Ny (fun j => Cmod (F j) ^ 2) (fun j => c ^ 2 * (if on j then 1 else 0))) by (intros j Hj; rewrite (H j Hj); destruct (on j); ring).
  rewrite (rsum_ext Ny (fun j => Cmod (F j) ^ 4) (fun j => c ^ 4 * (if on j then 1 else 0))) by (intros j Hj; rewrite (H j Hj); destruct (on j); ring).
  rewrite !rsum_scal. set (m := rsum Ny _).
  assert (G: forall j, (j < Ny)%nat -> 0 <= (if on j then 1 else 0)) by (intros j _; destruct (on j); lra).
  assert (m <> 0). { intro E. assert (Z := rsum_zero Ny _ G E j0 Hj0). cbv beta in Z. rewrite H0 in Z. lra. }
  field. split; assumption.
Qed.
(** The amplitude of the field does not matter. *)
Theorem C125_width_of_scaled_field : forall Ny (F : vec) c, c <> RtoC 0 -> width_eff Ny (fun j => c * F j)%C = width_eff Ny F.
Proof.
  intros Ny F c Hc. apply Cmod_gt_0 in Hc. unfold width_eff.
  rewrite (rsum_ext Ny (fun j => Cmod (c * F j)%C ^ 2) (fun j => Cmod c ^ 2 * Cmod (F j) ^ 2)) by (intros; rewrite Cmod_mult; ring).
  rewrite (rsum_ext Ny (fun j => Cmod (c * F j)%C ^ 4) (fun j => Cmod c ^ 4 * Cmod (F j) ^ 4)) by (intros; rewrite Cmod_mult; ring).
  rewrite !rsum_scal. unfold Rdiv. rewrite Rinv_mult. transitivity ((Cmod c ^ 4 * / Cmod c ^ 4) * (rsum Ny (fun j => Cmod (F j) ^ 2) ^ 2 * / rsum Ny (fun j => Cmod (F j) ^ 4))); [ring|].
  rewrite Rinv_r by (apply Rgt_not_eq, pow_lt; exact Hc). ring.
Qed.
(** The predicted phase is k0 n2 P L / A in SI units, for every length scale: lengths in metres are
    those in units of L0 times L0; the guide is as wide as the effective width and a hundred times
    as high. *)
Theorem C125_predicted_phase : forall omega chi3 eps_m L0 dl n Ny (F : vec) P, 0 < L0 -> 0 < dl -> 0 < eps_m ->
  (exists j, (j < Ny)%nat /\ F j <> RtoC 0) ->
  let metres x := x * L0 in
  spm_phase omega chi3 eps_m L0 dl n Ny F P =
  nonlinear_index eps_m chi3 * (omega / 300000000) * P * metres (dl * INR n) / (metres (dl * width_eff Ny F) * metres (100 * (dl * width_eff Ny F))).
Proof.
  intros omega chi3 eps_m L0 dl n Ny F P HL Hd He HF metres.
  assert (W: 0 < width_eff Ny F) by (destruct (C125_effective_width Ny F HF) as [[A _] _]; lra).
  assert (S: 0 < sqrt eps_m) by (apply sqrt_lt_R0; exact He). assert (E0 := EPSILON_0_pos).
  assert (C0 := C_0_pos).
  unfold spm_phase, gamma_spm, n2_units, A_eff, guide_height, guide_width, metres, nonlinear_index. field. repeat split; lra.
Qed.
Corollary C125_unit_of_length : forall omega chi3 eps_m L0 dl c n Ny (F : vec) P, 0 < L0 -> 0 < dl -> 0 < c -> 0 < eps_m ->
  (exists j, (j < Ny)%nat /\ F j <> RtoC 0) ->
  spm_phase omega chi3 eps_m (c * L0) (dl / c) n Ny F P = spm_phase omega chi3 eps_m L0 dl n Ny F P.
Proof.
  intros omega chi3 eps_m L0 dl c n Ny F P HL Hd Hc He HF.
  assert (0 < dl / c) by (apply Rdiv_lt_0_compat; lra). assert (0 < c * L0) by (apply Rmult_lt_0_compat; lra).
  rewrite !C125_predicted_phase by assumption. cbv zeta. 
  assert (X: forall x, x / c * (c * L0) = x * L0) by (intro; field; lra).
  replace (100 * (dl / c * width_eff Ny F)) with (100 * (dl * width_eff Ny F) / c) by (field; lra). replace (dl / c * width_eff Ny F) with (dl * width_eff Ny F / c) by (field; lra).
  replace (dl / c * INR n) with (dl * INR n / c) by (field; lra). rewrite !X. reflexivity.
Qed.
(** a profile of three pixels, two of them equal *)
Example C125_met : let F : vec := fun j => if Nat.ltb j 2 then Ci else RtoC 0 in (exists j, (j < 3)%nat /\ F j <> RtoC 0) /\ width_eff 3 F = 2.
Proof.
  intro F. split. { exists 0%nat. split; [lia|]. unfold F. cbn. intro E. injection E. lra. }
  rewrite (C125_plateau 3 F (fun j => Nat.ltb j 2) 1); [cbn; lra|lra| |exists 0%nat; split; [lia|reflexivity]].
  intros j Hj. unfold F. destruct (Nat.ltb j 2); [|apply Cmod_0]. unfold Cmod, Ci; cbn [fst snd]. replace (0 ^ 2 + 1 ^ 2) with 1 by ring. apply sqrt_1.
Qed.
