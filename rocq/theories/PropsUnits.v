(** C114: units and physical constants; C115: n2_from_chi3. *)
From Coq Require Import Reals Lra Lia List ZArith Arith Bool String Machin.
From Coquelicot Require Import Coquelicot.
From Verif Require Import Base Linear MCore MSim MConst Spec PCore PropsWave PropsAccuracy.
Import ListNotations.
Local Open Scope R_scope.

(** ** Specification: the SI values *)
Definition speed_of_light : R := 299792458.          (* m/s *)
Definition vacuum_permeability : R := 4 * PI / 10 ^ 7. (* H/m *)
Definition vacuum_permittivity : R := 1 / (vacuum_permeability * speed_of_light ^ 2).
Definition free_space_impedance : R := vacuum_permeability * speed_of_light.
(** a and b differ by at most two parts in a thousand million *)
Definition agrees (a b : R) : Prop := Rabs (a - b) <= 2 / 10 ^ 9 * b.
(** angular frequency of light whose vacuum wavelength is w micrometres *)
Definition frequency_of (w : R) : R := 2 * PI * speed_of_light / (w / 10 ^ 6).

Lemma PI_bounds : 31415926535 / 10 ^ 10 < PI < 31415926536 / 10 ^ 10.
Proof.
  destruct (PI_2_3_7_ineq 5) as [A B]. cbn [sum_f_R0 Nat.mul Nat.add] in A, B. unfold tg_alt, PI_2_3_7_tg, Ratan_seq in A, B. cbn [Nat.mul Nat.add] in A, B.
  cbn [pow INR] in A, B. split; lra.
Qed.
Lemma sqrt_between a b x : 0 <= a -> 0 <= b -> a ^ 2 <= x <= b ^ 2 -> a <= sqrt x <= b.
Proof.
  intros Ha Hb [A B]. split.
  - rewrite <- (sqrt_pow2 a Ha). apply sqrt_le_1_alt, A.
  - rewrite <- (sqrt_pow2 b Hb). apply sqrt_le_1_alt, B.
Qed.
Lemma C_0_bounds : 299792458 <= C_0 <= 2997924583 / 10.
Proof. unfold C_0. apply sqrt_between; try lra. unfold EPSILON_0, MU_0. cbn [pow]. lra. Qed.
Lemma ETA_0_bounds : 37673031319 / 10 ^ 8 <= ETA_0 <= 37673031320 / 10 ^ 8.
Proof. unfold ETA_0. apply sqrt_between; try (cbn [pow]; lra). unfold EPSILON_0, MU_0. cbn [pow]. lra. Qed.
Lemma product_c2 : EPSILON_0 * MU_0 * speed_of_light ^ 2 = 1 - (1 - EPSILON_0 * MU_0 * speed_of_light ^ 2) /\ 0 <= 1 - EPSILON_0 * MU_0 * speed_of_light ^ 2 <= 1 / 10 ^ 9.
Proof. split; [ring|]. unfold EPSILON_0, MU_0, speed_of_light. cbn [pow]. lra. Qed.

(** the constants of the package are those of the SI, and consistent with each other *)
Theorem C114_constants : agrees C_0 speed_of_light /\ agrees ETA_0 free_space_impedance /\ agrees MU_0 vacuum_permeability /\ agrees EPSILON_0 vacuum_permittivity.
Proof.
  destruct PI_bounds as [P1 P2]. destruct C_0_bounds as [C1 C2]. destruct ETA_0_bounds as [E1 E2].
  assert (PB := conj P1 P2). unfold agrees, free_space_impedance, vacuum_permittivity, vacuum_permeability, speed_of_light. cbn [pow] in *. split; [|split; [|split]].
  - apply Rabs_le. lra.
  - apply Rabs_le. lra.
  - apply Rabs_le. unfold MU_0. cbn [pow]. lra.
  - set (V := 1 / (4 * PI / (10 * (10 * (10 * (10 * (10 * (10 * (10 * 1))))))) * (299792458 * (299792458 * 1)))).
    assert (VE : V * (4 * PI / (10 * (10 * (10 * (10 * (10 * (10 * (10 * 1))))))) * (299792458 * (299792458 * 1))) = 1) by (unfold V; field; lra).
    assert (VP : 0 < V) by (unfold V; apply Rdiv_lt_0_compat; lra).
    apply Rabs_le. unfold EPSILON_0. cbn [pow]. set (p := PI) in *. assert (VL : V * 31415926535 <= V * (p * 10000000000)) by (apply Rmult_le_compat_l; lra). assert (VU : V * (p * 10000000000) <= V * 31415926536) by (apply Rmult_le_compat_l; lra). lra.
Qed.
Theorem C114_consistent : MU_0 * EPSILON_0 * C_0 ^ 2 = 1 /\ ETA_0 = MU_0 * C_0 /\ ETA_0 * EPSILON_0 * C_0 = 1.
Proof.
  assert (HM := MU_0_pos). assert (HE := EPSILON_0_pos). assert (Q : C_0 ^ 2 = 1 / EPSILON_0 / MU_0).
  { unfold C_0. apply pow2_sqrt. apply Rlt_le, Rdiv_lt_0_compat; [apply Rdiv_lt_0_compat; lra|exact HM]. }
  assert (E : ETA_0 = MU_0 * C_0).
  { unfold ETA_0, C_0. rewrite <- (sqrt_pow2 MU_0) at 2 by lra. rewrite <- sqrt_mult_alt by (apply pow2_ge_0). f_equal. field. lra. }
  split; [rewrite Q; field; lra|]. split; [exact E|]. rewrite E. transitivity (MU_0 * EPSILON_0 * C_0 ^ 2); [ring|]. rewrite Q. field. lra.
Qed.
(** lengths are micrometres unless another unit is given: at the angular frequency of light of w
    micrometres the equation solved is the wave equation with wave number 2 pi/w in vacuum *)
Theorem C114_micrometres : forall w eps dl s (v : R -> R -> C) K,
  Simulation (frequency_of w) eps dl (Some [0; 0]%Z) "Ez" DEFAULT_LENGTH_SCALE = Ok s -> 0 < w -> 0 < dl ->
  (2 <= nd_nx eps)%nat -> (2 <= nd_ny eps)%nat -> periodic (INR (nd_nx eps) * dl) (INR (nd_ny eps) * dl) v -> smooth_field 4 K v ->
  forall i j, (i < nd_nx eps)%nat -> (j < nd_ny eps)%nat -> let k := pix (nd_ny eps) i j in let x := INR i * dl in let y := INR j * dl in
  Cmod (RtoC (MU_0 * DEFAULT_LENGTH_SCALE) * mv (s_M s) (s_A s) (at_pixels dl (nd_ny eps) v) k -
        (d_dx 2 v x y + d_dy 2 v x y + RtoC ((2 * PI / w) ^ 2 * nd_buf eps k) * v x y))%C
  <= sqrt 2 * (K * dl ^ 2 / 6) + 2 / 10 ^ 9 * ((2 * PI / w) ^ 2 * Rabs (nd_buf eps k) * Cmod (v x y)).
Proof.
  intros w eps dl s v K HS Hw Hd H2 H3 HP HK i j Hi Hj k x y. assert (HM := MU_0_pos). assert (HL : 0 < DEFAULT_LENGTH_SCALE) by (unfold DEFAULT_LENGTH_SCALE; cbn [pow]; lra).
  assert (B := C110_wave_operator _ _ _ _ _ _ _ HS Hd H2 H3 HP HK i j Hi Hj). cbv zeta in B. fold k x y in B. set (L := DEFAULT_LENGTH_SCALE) in *. set (q := MU_0 * L) in *. assert (Hq : 0 < q) by (unfold q; apply Rmult_lt_0_compat; assumption).
  set (z := mv _ _ _ _) in *. set (D := (d_dx 2 v x y + d_dy 2 v x y)%C) in *. set (e := nd_buf eps k) in *. set (f := v x y) in *. set (kk := (2 * PI / w) ^ 2) in *.
  set (m := frequency_of w ^ 2 * (EPSILON_0 * L) * e) in *.
  assert (EM : q * m = kk * e * (EPSILON_0 * MU_0 * speed_of_light ^ 2)).
  { unfold q, m, kk, frequency_of, L, DEFAULT_LENGTH_SCALE. field. lra. }
  destruct product_c2 as [E [G1 G2]]. rewrite E in EM. set (g := 1 - EPSILON_0 * MU_0 * speed_of_light ^ 2) in *.
  replace (RtoC q * z - (D + RtoC (kk * e) * f))%C with (RtoC q * (z - (RtoC (1 / q) * D + RtoC m * f)) + RtoC (- (kk * e * g)) * f)%C.
  - eapply Rle_trans; [apply Cmod_triangle|]. rewrite !Cmod_mult, !Cmod_R. apply Rplus_le_compat.
    + rewrite (Rabs_right q) by lra. eapply Rle_trans; [apply Rmult_le_compat_l; [lra|exact B]|]. apply Req_le. field. lra.
    + rewrite Rabs_Ropp, !Rabs_mult, (Rabs_right kk), (Rabs_right g) by (try (apply Rle_ge; unfold kk; apply pow2_ge_0); lra).
      replace (2 / 10 ^ 9 * (kk * Rabs e * Cmod f)) with (kk * Rabs e * (2 / 10 ^ 9) * Cmod f) by ring. apply Rmult_le_compat_r; [apply Cmod_ge_0|]. apply Rmult_le_compat_l; [apply Rmult_le_pos; [unfold kk; apply pow2_ge_0|apply Rabs_pos]|]. cbn [pow] in *. lra.
  - assert (R1 : (RtoC q * RtoC (1 / q))%C = RtoC 1) by (rewrite <- RtoC_mult; f_equal; field; lra).
    assert (R2 : RtoC (- (kk * e * g)) = (RtoC q * RtoC m - RtoC (kk * e))%C). { rewrite <- RtoC_mult, <- RtoC_minus. f_equal. rewrite EM. ring. }
    rewrite R2. transitivity (RtoC q * z - RtoC q * RtoC (1 / q) * D - RtoC (kk * e) * f)%C; [ring|]. rewrite R1. ring.
Qed.
(** the two literals are the SI values rounded to nine digits *)
Theorem C114_digits : Rabs (MU_0 - vacuum_permeability) <= 1 / 2 / 10 ^ 14 /\ Rabs (EPSILON_0 - vacuum_permittivity) <= 1 / 2 / 10 ^ 20.
Proof.
  destruct PI_bounds as [P1 P2]. unfold vacuum_permittivity, vacuum_permeability, speed_of_light. cbn [pow] in *. split.
  - apply Rabs_le. unfold MU_0. cbn [pow]. lra.
  - set (V := 1 / (4 * PI / (10 * (10 * (10 * (10 * (10 * (10 * (10 * 1))))))) * (299792458 * (299792458 * 1)))).
    assert (VE : V * (4 * PI / (10 * (10 * (10 * (10 * (10 * (10 * (10 * 1))))))) * (299792458 * (299792458 * 1))) = 1) by (unfold V; field; lra).
    assert (VP : 0 < V) by (unfold V; apply Rdiv_lt_0_compat; lra).
    apply Rabs_le. unfold EPSILON_0. cbn [pow]. set (p := PI) in *. assert (VL : V * 31415926535 <= V * (p * 10000000000)) by (apply Rmult_le_compat_l; lra). assert (VU : V * (p * 10000000000) <= V * 31415926536) by (apply Rmult_le_compat_l; lra). lra.
Qed.

(** ** Examples *)
Example C114_met : forall w, 0 < w -> exists s,
  Simulation (frequency_of w) (mkNd 8 3 (fun _ => 1)) 1 (Some [0; 0]%Z) "Ez" DEFAULT_LENGTH_SCALE = Ok s /\
  periodic (INR 8 * 1) (INR 3 * 1) ex_u /\ smooth_field 4 1 ex_u.
Proof.
  intros w Hw. assert (HF : 0 < frequency_of w).
  { unfold frequency_of, speed_of_light. assert (P := PI_RGT_0). apply Rdiv_lt_0_compat; [lra|]. cbn [pow]. lra. }
  assert (HL : 0 < DEFAULT_LENGTH_SCALE) by (unfold DEFAULT_LENGTH_SCALE; cbn [pow]; lra).
  assert (Hs : exists s, Simulation (frequency_of w) (mkNd 8 3 (fun _ => 1%R)) 1 (Some [0; 0]%Z) "Ez" DEFAULT_LENGTH_SCALE = Ok s).
  { unfold Simulation, check_inputs. destruct (Rlt_dec 0 DEFAULT_LENGTH_SCALE); [|contradiction]. destruct (Rlt_dec 0 (frequency_of w)); [|contradiction]. eexists. reflexivity. }
  destruct Hs as [s Hs]. exists s. split; [exact Hs|]. split; [exact ex_u_periodic|apply ex_u_smooth].
Qed.

(** ** C115 *)
(** what the comment of the function promises: the nonlinear index of a medium of relative
    permittivity em and third-order susceptibility chi3 *)
Definition nonlinear_index (em chi3 : R) : R := 3 * chi3 / (C_0 * sqrt em * EPSILON_0).
(** no call ever returns a number *)
Theorem C115_n2_refuted : forall chi3, n2_from_chi3 chi3 = Raise NameError.
Proof. intro chi3. reflexivity. Qed.
(** importing numpy as np would not be enough: the permittivity of the medium is not an argument *)
Theorem C115_np_not_enough : forall chi3, n2_from_chi3_in const_names (Ok sqrt) chi3 = Raise NameError.
Proof. intro chi3. reflexivity. Qed.
(** with both names bound the formula is the promised one *)
Theorem C115_formula : forall em chi3, 0 < em -> n2_from_chi3_in (("eps_m"%string, em) :: const_names) (Ok sqrt) chi3 = Ok (nonlinear_index em chi3).
Proof.
  intros em chi3 Hm. unfold n2_from_chi3_in, nonlinear_index. cbn. f_equal. assert (Q := C_0_pos). assert (HE := EPSILON_0_pos). assert (S := sqrt_lt_R0 em Hm). field. lra.
Qed.
Example C115_met : nonlinear_index 4 (1 / 10 ^ 20) > 0.
Proof.
  unfold nonlinear_index. assert (Q := C_0_pos). assert (HE := EPSILON_0_pos). assert (S : 0 < sqrt 4) by (apply sqrt_lt_R0; lra).
  apply Rlt_gt, Rdiv_lt_0_compat; [cbn [pow]; lra|]. apply Rmult_lt_0_compat; [apply Rmult_lt_0_compat|]; assumption.
Qed.
