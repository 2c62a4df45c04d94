(** C113: the grid step and the difference matrices in floating point. *)
From Coq Require Import Reals Lra Lia List ZArith Arith Bool Psatz.
From Coquelicot Require Import Coquelicot.
From Flocq Require Import Core.
From Verif Require Import Base Linear MCore Spec PCore MFloat MFloatStep PropsFloat PropsFloatGrid PropsAccuracy.
Import ListNotations.
Local Open Scope R_scope.

(** ** Specification *)
(** the pixel from which the difference along the axis starts, and the one where it ends, with
    periodic boundaries *)
Definition diff_from (w : axis) (s : side) (Nx Ny i j : nat) : nat :=
  match s, w with Fwd, _ => pix Ny i j | Bwd, AxX => pix Ny (prev Nx i) j | Bwd, AxY => pix Ny i (prev Ny j) end.
Definition diff_to (w : axis) (s : side) (Nx Ny i j : nat) : nat :=
  match s, w with Bwd, _ => pix Ny i j | Fwd, AxX => pix Ny (next Nx i) j | Fwd, AxY => pix Ny i (next Ny j) end.
Definition pixels_along (w : axis) (Nx Ny : nat) : nat := match w with AxX => Nx | AxY => Ny end.
(** not so small that the products below leave the range of binary64 *)
Definition moderate (x : R) : Prop := powerRZ 2 (-400) <= x <= powerRZ 2 400.
Definition in_range (x : R) : Prop := x = 0 \/ powerRZ 2 (-400) <= Rabs x.

(** ** The step *)
Lemma pow_scale : powerRZ 2 (-1022) <= powerRZ 2 (-400) * powerRZ 2 (-400) / 8 /\ 0 < powerRZ 2 (-400) <= / 8 /\ powerRZ 2 400 * powerRZ 2 (-400) = 1 /\ powerRZ 2 (-1022) <= powerRZ 2 (-400) / 8.
Proof.
  rewrite !powerRZ_bpow. assert (E8 : bpow radix2 (-3) = / 8) by (cbn; lra). unfold Rdiv. rewrite <- E8, <- !bpow_plus.
  split; [apply bpow_le; lia|]. split; [split; [apply bpow_gt_0|apply bpow_le; lia]|]. split; [reflexivity|apply bpow_le; lia].
Qed.
Lemma step_unfold N dl : step_f N dl = fl (fl (INR N * dl) / INR N).
Proof. unfold step_f, range_f. cbn [fst snd]. rewrite Rminus_0_r, (fl_id (fl (INR N * dl))) by apply fl_b64. reflexivity. Qed.
Lemma step_rel N dl : (1 <= N)%nat -> powerRZ 2 (-400) <= dl -> exists e, Rabs e <= 2 * u + u ^ 2 /\ step_f N dl = dl * (1 + e).
Proof.
  intros HN Hd. destruct pow_scale as (_ & P1 & _ & P2). assert (N1 : 1 <= INR N) by (apply (le_INR 1), HN). assert (U := u_pos).
  rewrite step_unfold. destruct (fl_rel (INR N * dl)) as (a & Ha & Ea).
  { right. rewrite Rabs_right by (apply Rle_ge, Rmult_le_pos; lra). assert (1 * dl <= INR N * dl) by (apply Rmult_le_compat_r; lra). lra. }
  apply Rabs_le_inv in Ha as Ha'. rewrite Ea. replace (INR N * dl * (1 + a) / INR N) with (dl * (1 + a)) by (field; lra).
  destruct (fl_rel (dl * (1 + a))) as (b & Hb & Eb).
  { right. assert (dl * (1 / 2) <= dl * (1 + a)) by (apply Rmult_le_compat_l; lra). rewrite Rabs_right by lra. lra. }
  exists (a + b + a * b). split; [|rewrite Eb; ring].
  eapply Rle_trans; [apply Rabs_triang|]. rewrite Rabs_mult. assert (T := Rabs_triang a b).
  assert (Rabs a * Rabs b <= u * u) by (apply Rmult_le_compat; try apply Rabs_pos; assumption). cbn [pow]. lra.
Qed.
(** the step of the difference matrices is the dl of the simulation, up to two roundings *)
Theorem C113_step_accurate : forall N dl, (1 <= N)%nat -> powerRZ 2 (-400) <= dl -> Rabs (step_f N dl - dl) <= (2 * u + u ^ 2) * dl.
Proof.
  intros N dl HN Hd. destruct pow_scale as (_ & P1 & _). destruct (step_rel N dl HN Hd) as (e & He & ->). replace (dl * (1 + e) - dl) with (e * dl) by ring.
  rewrite Rabs_mult, (Rabs_right dl) by lra. apply Rmult_le_compat_r; [lra|exact He].
Qed.
(** it is dl exactly when the length of the domain is a binary64 number *)
Theorem C113_step_exact : forall N dl, (1 <= N)%nat -> b64 dl -> b64 (INR N * dl) -> step_f N dl = dl.
Proof.
  intros N dl HN Hd HL. assert (N1 : 1 <= INR N) by (apply (le_INR 1), HN). rewrite step_unfold, (fl_id (INR N * dl)) by exact HL.
  replace (INR N * dl / INR N) with dl by (field; lra). apply fl_id, Hd.
Qed.
Corollary C113_step_power_of_two : forall k dl, b64 dl -> step_f (2 ^ k) dl = dl.
Proof.
  intros k dl Hd. apply C113_step_exact; [|exact Hd|].
  - assert (H := Nat.pow_nonzero 2 k). lia.
  - rewrite pow_INR. replace (INR 2) with 2 by (cbn; lra). rewrite pow_powerRZ. apply b64_twice; [lia|exact Hd].
Qed.
(** exact evaluation of a product of concrete binary64 numbers *)
Definition f64_mult : f64 -> f64 -> f64 := @BinarySingleNaN.Bmult 53 1024 eq_refl eq_refl BinarySingleNaN.mode_NE.
Lemma f64_mult_spec x y m e : BinarySingleNaN.B2SF (f64_mult x y) = SpecFloat.S754_finite false m e ->
  fl (BinarySingleNaN.B2R x * BinarySingleNaN.B2R y) = IZR (Zpos m) * bpow radix2 e.
Proof.
  intros E. assert (S := @BinarySingleNaN.Bmult_correct 53 1024 eq_refl eq_refl BinarySingleNaN.mode_NE x y). fold (f64_mult x y) in S.
  assert (V : BinarySingleNaN.B2R (f64_mult x y) = IZR (Zpos m) * bpow radix2 e) by (rewrite <- BinarySingleNaN.SF2R_B2SF, E; reflexivity).
  destruct (Rlt_bool _ _); [destruct S as [S _]|rewrite E in S; discriminate]. rewrite <- V. symmetry. exact S.
Qed.
(** and not always: three pixels of 0.1 *)
Lemma three_steps : fl (1 / 10) = 7205759403792794 * / 2 ^ 56 /\ step_f 3 (fl (1 / 10)) = 7205759403792795 * / 2 ^ 56.
Proof.
  destruct c_values as (E1 & E3 & E10). rewrite !(pow_IZR 2 56).
  destruct (f64_div_spec c1 c10 7205759403792794 (-56)) as [B _]; [lra|vm_compute; reflexivity|]. rewrite E1, E10 in B.
  assert (V : fl (1 / 10) = 7205759403792794 * / IZR (2 ^ 56)). { rewrite B. unfold bpow. cbn -[IZR]. lra. }
  split; [exact V|]. rewrite step_unfold. replace (INR 3) with 3 by (cbn; lra).
  set (c3tenths := @BinarySingleNaN.B754_finite 53 1024 false 5404319552844596 (-54) eq_refl : f64).
  assert (E03 : BinarySingleNaN.B2R c3tenths = 5404319552844596 * / IZR (2 ^ 54)) by (unfold c3tenths, BinarySingleNaN.B2R, F2R, Fnum, Fexp, cond_Zopp, bpow; cbn -[IZR]; lra).
  assert (P : fl (3 * fl (1 / 10)) = BinarySingleNaN.B2R c3tenths).
  { rewrite V. set (c01 := @BinarySingleNaN.B754_finite 53 1024 false 7205759403792794 (-56) eq_refl : f64).
    assert (E01 : BinarySingleNaN.B2R c01 = 7205759403792794 * / IZR (2 ^ 56)) by (unfold c01, BinarySingleNaN.B2R, F2R, Fnum, Fexp, cond_Zopp, bpow; cbn -[IZR]; lra).
    rewrite <- E01, <- E3, (f64_mult_spec c3 c01 5404319552844596 (-54)) by (vm_compute; reflexivity). rewrite E03. unfold bpow. cbn -[IZR]. lra. }
  destruct (f64_div_spec c3tenths c3 7205759403792795 (-56)) as [D _]; [lra|vm_compute; reflexivity|]. rewrite E3 in D. rewrite P, D. unfold bpow. cbn -[IZR]. lra.
Qed.

Theorem C113_step_refuted : ~ (forall N dl, (1 <= N)%nat -> b64 dl -> moderate dl -> step_f N dl = dl).
Proof.
  intro H. destruct three_steps as [A B]. specialize (H 3%nat (fl (1 / 10)) ltac:(lia) (fl_b64 _)). rewrite B, A in H.
  assert (M : moderate (7205759403792794 * / 2 ^ 56)).
  { unfold moderate. rewrite (pow_IZR 2 56). rewrite !powerRZ_bpow. split.
    - apply Rle_trans with (bpow radix2 (-4)); [apply bpow_le; lia|]. cbn -[IZR]. lra.
    - apply Rle_trans with (bpow radix2 0); [|apply bpow_le; lia]. cbn -[IZR]. lra. }
  specialize (H M). rewrite (pow_IZR 2 56) in H. cbn -[IZR] in H. lra.
Qed.

(** ** The matrices *)
Section Rows.
Variables (w : axis) (s : side) (Nx Ny : nat).
Hypothesis (HN : (2 <= pixels_along w Nx Ny)%nat).
Variables (i j : nat).
Hypothesis (Hi : (i < Nx)%nat) (Hj : (j < Ny)%nat).
Notation from := (diff_from w s Nx Ny i j).
Notation to := (diff_to w s Nx Ny i j).
Lemma pix_lt a b : (a < Nx)%nat -> (b < Ny)%nat -> (pix Ny a b < Nx * Ny)%nat.
Proof. intros. unfold pix. nia. Qed.
Lemma pix_inj a b a' b' : (b < Ny)%nat -> (b' < Ny)%nat -> pix Ny a b = pix Ny a' b' -> a = a' /\ b = b'.
Proof. intros B B' E. unfold pix in E. assert (D := f_equal (fun x => x / Ny)%nat E). assert (M := f_equal (fun x => x mod Ny)%nat E). cbn beta in D, M. rewrite !flat_div in D by assumption. rewrite !flat_mod in M by assumption. split; assumption. Qed.
Lemma ends : (from < Nx * Ny)%nat /\ (to < Nx * Ny)%nat /\ from <> to.
Proof.
  assert (L : forall a b, (a < Nx)%nat -> (b < Ny)%nat -> (pix Ny a b < Nx * Ny)%nat) by exact pix_lt.
  assert (K : forall a b a' b', (b < Ny)%nat -> (b' < Ny)%nat -> (a <> a' \/ b <> b') -> pix Ny a b <> pix Ny a' b').
  { intros a b a' b' B B' D E. destruct (pix_inj a b a' b' B B' E). tauto. }
  unfold pixels_along in HN. destruct w, s; unfold diff_from, diff_to.
  - assert (A := next_lt Nx i Hi). assert (B := next_neq Nx i HN Hi). repeat split; auto.
  - assert (A := prev_lt Nx i Hi). assert (B := prev_neq Nx i HN Hi). repeat split; auto.
  - assert (A := next_lt Ny j Hj). assert (B := next_neq Ny j HN Hj). repeat split; auto.
  - assert (A := prev_lt Ny j Hj). assert (B := prev_neq Ny j HN Hj). repeat split; auto.
Qed.
Lemma unit_entries c : (c < Nx * Ny)%nat -> fst (createDws w s 1 1 Nx Ny (pix Ny i j) c) = if Nat.eqb c from then -1 else if Nat.eqb c to then 1 else 0.
Proof.
  intro Hc. destruct ends as (_ & _ & NE). assert (HY : Ny <> 0%nat) by lia. assert (CX : (c / Ny < Nx)%nat) by (apply Nat.div_lt_upper_bound; lia). assert (CY : (c mod Ny < Ny)%nat) by (apply Nat.mod_upper_bound; exact HY).
  assert (EC : c = pix Ny (c / Ny) (c mod Ny)) by (unfold pix; rewrite Nat.mul_comm; apply Nat.div_mod, HY).
  assert (Q : forall a b, (b < Ny)%nat -> Nat.eqb c (pix Ny a b) = Nat.eqb (c / Ny) a && Nat.eqb (c mod Ny) b).
  { intros a b Hb. apply Bool.eq_iff_eq_true. rewrite andb_true_iff, !Nat.eqb_eq. split; [intro E; rewrite EC in E; apply pix_inj in E; assumption|intros [E1 E2]; rewrite EC, E1, E2; reflexivity]. }
  unfold pixels_along in HN. destruct w, s; unfold diff_from, diff_to, createDws in *; rewrite ltb_true by exact HN; unfold mscal, sp_kron, sp_eye, mId; unfold pix at 1 2; rewrite flat_div, flat_mod by exact Hj.
  - fold (dfwd Nx). rewrite dfwd_entry by assumption. rewrite !Q by assumption. rewrite (Nat.eqb_sym j).
    destruct (Nat.eqb (c / Ny) i), (Nat.eqb (c / Ny) (next Nx i)), (Nat.eqb (c mod Ny) j); cbn [andb]; autorewrite with reim; cbn; lra.
  - fold (dbwd Nx). rewrite dbwd_entry by assumption. rewrite !Q by assumption. rewrite (Nat.eqb_sym j). assert (B := prev_neq Nx i HN Hi).
    destruct (Nat.eqb_spec (c / Ny) i), (Nat.eqb_spec (c / Ny) (prev Nx i)), (Nat.eqb (c mod Ny) j); cbn [andb]; try (exfalso; congruence); cbn; lra.
  - fold (dfwd Ny). rewrite dfwd_entry by assumption. rewrite !Q by (try apply next_lt; assumption). rewrite (Nat.eqb_sym i).
    destruct (Nat.eqb (c mod Ny) j), (Nat.eqb (c mod Ny) (next Ny j)), (Nat.eqb (c / Ny) i); cbn [andb]; cbn; lra.
  - fold (dbwd Ny). rewrite dbwd_entry by assumption. rewrite !Q by (try apply prev_lt; assumption). rewrite (Nat.eqb_sym i). assert (B := prev_neq Ny j HN Hj).
    destruct (Nat.eqb_spec (c mod Ny) j), (Nat.eqb_spec (c mod Ny) (prev Ny j)), (Nat.eqb (c / Ny) i); cbn [andb]; try (exfalso; congruence); cbn; lra.
Qed.
Variable (dl : R).
Notation r := (fl (1 / step_f (pixels_along w Nx Ny) dl)).
Lemma deriv_entries c : (c < Nx * Ny)%nat -> deriv_f w s Nx Ny dl (pix Ny i j) c = if Nat.eqb c from then - r else if Nat.eqb c to then r else 0.
Proof.
  intro Hc. unfold deriv_f, createDws_f. rewrite unit_entries by exact Hc.
  replace (match w with AxX => step_f Nx dl | AxY => step_f Ny dl end) with (step_f (pixels_along w Nx Ny) dl) by (destruct w; reflexivity).
  fold (pixels_along w Nx Ny). rewrite ltb_true by exact HN.
  destruct (Nat.eqb c from); [replace (r * -1) with (- r) by ring; rewrite fl_opp; f_equal; apply fl_id, fl_b64|].
  destruct (Nat.eqb c to); [rewrite Rmult_1_r; apply fl_id, fl_b64|]. rewrite Rmult_0_r. apply fl_id, (b64_IZR 0). reflexivity.
Qed.
Lemma fl_0 : fl 0 = 0. Proof. apply fl_id, (b64_IZR 0). reflexivity. Qed.
(** a row with two entries *)
Lemma fold_two (a x : nat -> R) p q n : p <> q -> (forall c, c <> p -> c <> q -> (c < n)%nat -> a c = 0) ->
  fold_left (fun acc c => fl (acc + fl (a c * x c))) (seq 0 n) 0 =
  if Nat.ltb p n then (if Nat.ltb q n then fl (fl (a p * x p) + fl (a q * x q)) else fl (a p * x p)) else (if Nat.ltb q n then fl (a q * x q) else 0).
Proof.
  intros NE. induction n as [|n IH]; intros Z; [reflexivity|]. rewrite seq_S, fold_left_app. cbn [fold_left Nat.add]. rewrite IH by (intros; apply Z; lia). clear IH.
  destruct (Nat.eq_dec n p) as [->|N1]; [|destruct (Nat.eq_dec n q) as [->|N2]].
  - rewrite Nat.ltb_irrefl, (proj2 (Nat.ltb_lt p (S p)) (Nat.lt_succ_diag_r p)). destruct (Nat.ltb_spec q p), (Nat.ltb_spec q (S p)); try lia.
    + f_equal. ring.
    + rewrite Rplus_0_l. apply fl_id, fl_b64.
  - rewrite Nat.ltb_irrefl, (proj2 (Nat.ltb_lt q (S q)) (Nat.lt_succ_diag_r q)). destruct (Nat.ltb_spec p q), (Nat.ltb_spec p (S q)); try lia.
    + reflexivity.
    + rewrite Rplus_0_l. apply fl_id, fl_b64.
  - rewrite (Z n) by lia. rewrite Rmult_0_l, fl_0, Rplus_0_r. destruct (Nat.ltb_spec p n), (Nat.ltb_spec p (S n)), (Nat.ltb_spec q n), (Nat.ltb_spec q (S n)); try lia; try (apply fl_id, fl_b64). apply fl_0.
Qed.
(** the derivative in floating point: two products and one difference *)
Lemma row_value x : apply_deriv_f w s Nx Ny dl x (pix Ny i j) = fl (fl (r * x to) - fl (r * x from)).
Proof.
  destruct ends as (L1 & L2 & NE). unfold apply_deriv_f, mv_f. set (a := deriv_f w s Nx Ny dl (pix Ny i j)).
  assert (A1 : a from = - r) by (unfold a; rewrite deriv_entries, Nat.eqb_refl by exact L1; reflexivity).
  assert (A2 : a to = r). { unfold a. rewrite deriv_entries, Nat.eqb_refl by exact L2. destruct (Nat.eqb_spec to from); [congruence|reflexivity]. }
  rewrite (fold_two a x from to).
  - rewrite (proj2 (Nat.ltb_lt _ _) L1), (proj2 (Nat.ltb_lt _ _) L2), A1, A2. replace (- r * x from) with (- (r * x from)) by ring. rewrite fl_opp. f_equal. ring.
  - exact NE.
  - intros c N1 N2 Hc. unfold a. rewrite deriv_entries by exact Hc. destruct (Nat.eqb_spec c from); [contradiction|]. destruct (Nat.eqb_spec c to); [contradiction|reflexivity].
Qed.
End Rows.

(** a uniform field has derivative exactly zero, whatever was rounded *)
Theorem C113_uniform_field : forall w s Nx Ny dl (x : nat -> R) v, (2 <= pixels_along w Nx Ny)%nat -> (forall k, (k < Nx * Ny)%nat -> x k = v) ->
  forall i j, (i < Nx)%nat -> (j < Ny)%nat -> apply_deriv_f w s Nx Ny dl x (pix Ny i j) = 0.
Proof.
  intros w s Nx Ny dl x v HN Hx i j Hi Hj. destruct (ends w s Nx Ny HN i j Hi Hj) as (L1 & L2 & _). rewrite row_value, !Hx by assumption.
  unfold Rminus. rewrite Rplus_opp_r. apply fl_0.
Qed.
(** the forward matrices are exactly minus the transposes of the backward matrices *)
Theorem C113_transpose : forall w Nx Ny dl r c, (2 <= pixels_along w Nx Ny)%nat ->
  deriv_f w Fwd Nx Ny dl r c = - deriv_f w Bwd Nx Ny dl c r.
Proof.
  intros w Nx Ny dl r c HN. unfold deriv_f, createDws_f. rewrite (Dws_transpose w 1 1 Nx Ny r c).
  assert (E : forall z, fst (sgn_axis w Nx Ny * z)%C = - fst z). { intro z. unfold sgn_axis, pixels_along in *. destruct w; rewrite ltb_true by exact HN; destruct z; cbn; ring. }
  rewrite E. fold (pixels_along w Nx Ny). rewrite ltb_true by exact HN. rewrite <- fl_opp. f_equal. ring.
Qed.

Lemma inv_step_rel N dl : (1 <= N)%nat -> moderate dl -> exists e, Rabs e <= 4 * u /\ fl (1 / step_f N dl) = / dl * (1 + e).
Proof.
  intros HN [Hd Hd']. destruct pow_scale as (_ & P1 & P2 & P3). assert (U := u_pos). destruct (step_rel N dl HN Hd) as (a & Ha & ->). cbn [pow] in Ha.
  assert (UU : u * (u * 1) <= / 64 * u) by (rewrite Rmult_1_r; apply Rmult_le_compat_r; lra). assert (A : Rabs a <= (2 + / 64) * u) by lra. clear Ha. apply Rabs_le_inv in A as A'.
  assert (D : 0 < dl) by lra. assert (ID : powerRZ 2 (-400) <= / dl).
  { replace (powerRZ 2 (-400)) with (/ powerRZ 2 400) by (apply (Rmult_eq_reg_l (powerRZ 2 400)); [rewrite P2; field; lra|lra]). apply Rinv_le_contravar; lra. }
  destruct (fl_rel (1 / (dl * (1 + a)))) as (b & Hb & ->).
  { right. replace (1 / (dl * (1 + a))) with (/ dl * / (1 + a)) by (field; lra). assert (I : / 2 <= / (1 + a)) by (apply Rinv_le_contravar; lra).
    assert (J : powerRZ 2 (-400) * / 2 <= / dl * / (1 + a)) by (apply Rmult_le_compat; lra). rewrite Rabs_right by lra. lra. }
  exists ((b - a) / (1 + a)). split; [|field; lra]. unfold Rdiv. rewrite Rabs_mult, Rabs_inv, (Rabs_right (1 + a)) by lra.
  apply Rmult_le_reg_r with (1 + a); [lra|]. rewrite Rmult_assoc, Rinv_l by lra. assert (T := Rabs_triang b (- a)). rewrite Rabs_Ropp in T.
  assert (4 * u * (1 - / 64) <= 4 * u * (1 + a)) by (apply Rmult_le_compat_l; lra). unfold Rminus. lra.
Qed.
Lemma product_rel N dl v : (1 <= N)%nat -> moderate dl -> in_range v -> exists e, Rabs e <= 51 / 10 * u /\ fl (fl (1 / step_f N dl) * v) = v / dl * (1 + e).
Proof.
  intros HN Hd Hv. destruct (inv_step_rel N dl HN Hd) as (a & Ha & ->). destruct Hd as [Hd Hd']. destruct pow_scale as (P0 & P1 & P2 & P3). assert (U := u_pos). apply Rabs_le_inv in Ha as A'.
  assert (D : 0 < dl) by lra. assert (ID : powerRZ 2 (-400) <= / dl).
  { replace (powerRZ 2 (-400)) with (/ powerRZ 2 400) by (apply (Rmult_eq_reg_l (powerRZ 2 400)); [rewrite P2; field; lra|lra]). apply Rinv_le_contravar; lra. }
  destruct (fl_rel (/ dl * (1 + a) * v)) as (b & Hb & ->).
  { destruct Hv as [->|Hv]; [left; ring|right]. rewrite !Rabs_mult, (Rabs_right (/ dl)), (Rabs_right (1 + a)) by lra.
    assert (J : powerRZ 2 (-400) * / 2 <= / dl * (1 + a)) by (apply Rmult_le_compat; lra).
    assert (powerRZ 2 (-400) * / 2 * powerRZ 2 (-400) <= / dl * (1 + a) * Rabs v) by (apply Rmult_le_compat; [lra|lra|exact J|exact Hv]).
    assert (0 <= powerRZ 2 (-400) * powerRZ 2 (-400)) by (apply Rmult_le_pos; lra). lra. }
  destruct (mul1 b a u (4 * u) ltac:(lra) ltac:(lra) Hb Ha) as (c & Ec & Hc). exists c. split; [lra|]. transitivity (v / dl * ((1 + b) * (1 + a))); [field; lra|rewrite Ec; reflexivity].
Qed.
Lemma difference_error N dl a b : (1 <= N)%nat -> moderate dl -> in_range a -> in_range b ->
  Rabs (fl (fl (fl (1 / step_f N dl) * a) - fl (fl (1 / step_f N dl) * b)) - (a - b) / dl) <= 25 / 4 * u * ((Rabs a + Rabs b) / dl).
Proof.
  intros HN Hd Ha Hb. destruct (product_rel N dl a HN Hd Ha) as (x & Hx & Ex). destruct (product_rel N dl b HN Hd Hb) as (y & Hy & Ey).
  assert (D : 0 < dl) by (destruct pow_scale as (_ & P & _); destruct Hd; lra). assert (U := u_pos).
  assert (Bb : b64 (- fl (fl (1 / step_f N dl) * b))) by (rewrite <- fl_opp; apply fl_b64).
  destruct (fl_plus_rel (fl (fl (1 / step_f N dl) * a)) _ (fl_b64 _) Bb) as (z & Hz & Ez). unfold Rminus at 2. rewrite Ez, Ex, Ey. clear Ez Bb.
  destruct (mul1 z x u (51 / 10 * u) ltac:(lra) ltac:(lra) Hz Hx) as (p & Ep & Hp). destruct (mul1 z y u (51 / 10 * u) ltac:(lra) ltac:(lra) Hz Hy) as (q & Eq & Hq).
  replace ((a / dl * (1 + x) + - (b / dl * (1 + y))) * (1 + z) - (a - b) / dl) with (a / dl * ((1 + z) * (1 + x)) - b / dl * ((1 + z) * (1 + y)) - (a - b) / dl) by ring.
  rewrite Ep, Eq. replace (a / dl * (1 + p) - b / dl * (1 + q) - (a - b) / dl) with (a / dl * p + - (b / dl * q)) by (field; lra).
  eapply Rle_trans; [apply Rabs_triang|]. rewrite Rabs_Ropp, !Rabs_mult. unfold Rdiv. rewrite !Rabs_mult, (Rabs_right (/ dl)) by (apply Rle_ge, Rlt_le, Rinv_0_lt_compat, D).
  assert (I : 0 < / dl) by (apply Rinv_0_lt_compat, D).
  assert (Rabs a * / dl * Rabs p <= Rabs a * / dl * (25 / 4 * u)) by (apply Rmult_le_compat_l; [apply Rmult_le_pos; [apply Rabs_pos|lra]|lra]).
  assert (Rabs b * / dl * Rabs q <= Rabs b * / dl * (25 / 4 * u)) by (apply Rmult_le_compat_l; [apply Rmult_le_pos; [apply Rabs_pos|lra]|lra]). lra.
Qed.
(** the computed derivative is the periodic difference quotient over dl, up to a few units in the
    last place of its two terms *)
Theorem C113_derivative_accurate : forall w s Nx Ny dl (x : nat -> R), (2 <= pixels_along w Nx Ny)%nat -> moderate dl -> (forall k, (k < Nx * Ny)%nat -> in_range (x k)) ->
  forall i j, (i < Nx)%nat -> (j < Ny)%nat -> let a := x (diff_to w s Nx Ny i j) in let b := x (diff_from w s Nx Ny i j) in
  Rabs (apply_deriv_f w s Nx Ny dl x (pix Ny i j) - (a - b) / dl) <= 25 / 4 * u * ((Rabs a + Rabs b) / dl).
Proof.
  intros w s Nx Ny dl x HN Hd Hx i j Hi Hj a b. destruct (ends w s Nx Ny HN i j Hi Hj) as (L1 & L2 & _). rewrite row_value by assumption.
  apply difference_error; [lia|exact Hd|apply Hx, L2|apply Hx, L1].
Qed.

(** sampling a smooth field and differentiating it in floating point: truncation and rounding *)
Definition pixel_value (phi : R -> R -> R) (dl : R) (Ny k : nat) : R := phi (INR (k / Ny) * dl) (INR (k mod Ny) * dl).
Definition midpoint_derivative (w : axis) (s : side) (phi : R -> R -> R) (dl x y : R) : R :=
  let h := match s with Fwd => dl / 2 | Bwd => - (dl / 2) end in
  match w with AxX => Derive (fun t => phi t y) (x + h) | AxY => Derive (fun t => phi x t) (y + h) end.
Lemma quotient_error w s Nx Ny dl phi K : (forall x y, phi (x + INR Nx * dl) y = phi x y /\ phi x (y + INR Ny * dl) = phi x y) ->
  (forall x y, smooth 3 K (fun t => phi t y) /\ smooth 3 K (fun t => phi x t)) -> 0 < dl -> forall i j, (i < Nx)%nat -> (j < Ny)%nat ->
  Rabs ((pixel_value phi dl Ny (diff_to w s Nx Ny i j) - pixel_value phi dl Ny (diff_from w s Nx Ny i j)) / dl - midpoint_derivative w s phi dl (INR i * dl) (INR j * dl)) <= K * dl ^ 2 / 24.
Proof.
  intros HP HS Hd i j Hi Hj. set (U := fun x y => RtoC (phi x y)).
  assert (PU : periodic (INR Nx * dl) (INR Ny * dl) U). { intros x y. destruct (HP x y) as [E1 E2]. unfold U. rewrite E1, E2. split; reflexivity. }
  assert (PV : forall k, pixel_value phi dl Ny k = Re (at_pixels dl Ny U k)) by reflexivity.
  assert (G : forall a b d (f : R -> R), smooth 3 K f -> a = f (d + dl / 2) -> b = f (d - dl / 2) -> Rabs ((a - b) / dl - Derive f d) <= K * dl ^ 2 / 24).
  { intros a b d f Hf -> ->. assert (B := first_diff K f d dl Hf Hd).
    replace ((f (d + dl / 2) - f (d - dl / 2)) / dl - Derive f d) with ((f (d + dl / 2) - f (d - dl / 2) - dl * Derive f d) / dl) by (field; lra).
    unfold Rdiv at 1. rewrite Rabs_mult, (Rabs_right (/ dl)) by (apply Rle_ge, Rlt_le, Rinv_0_lt_compat, Hd). apply Rmult_le_reg_r with dl; [exact Hd|]. rewrite Rmult_assoc, Rinv_l, Rmult_1_r by lra.
    replace (K * dl ^ 2 / 24 * dl) with (K * dl ^ 3 / 24) by field. exact B. }
  rewrite !PV. destruct w, s; unfold diff_to, diff_from, midpoint_derivative.
  - apply G; [apply (HS 0)|rewrite (at_next_x _ _ _ _ PU) by assumption|rewrite at_pix by assumption]; unfold U; cbn [Re RtoC fst]; f_equal; lra.
  - apply G; [apply (HS 0)|rewrite at_pix by assumption|rewrite (at_prev_x _ _ _ _ PU) by assumption]; unfold U; cbn [Re RtoC fst]; f_equal; lra.
  - apply G; [apply (HS _ 0)|rewrite (at_next_y _ _ _ _ PU) by assumption|rewrite at_pix by assumption]; unfold U; cbn [Re RtoC fst]; f_equal; lra.
  - apply G; [apply (HS _ 0)|rewrite at_pix by assumption|rewrite (at_prev_y _ _ _ _ PU) by assumption]; unfold U; cbn [Re RtoC fst]; f_equal; lra.
Qed.
Theorem C113_total_error : forall w s Nx Ny dl phi K B (F : nat -> R), (2 <= pixels_along w Nx Ny)%nat -> moderate dl ->
  (forall x y, phi (x + INR Nx * dl) y = phi x y /\ phi x (y + INR Ny * dl) = phi x y) ->
  (forall x y, smooth 3 K (fun t => phi t y) /\ smooth 3 K (fun t => phi x t)) -> (forall x y, Rabs (phi x y) <= B) ->
  (forall k, (k < Nx * Ny)%nat -> in_range (F k) /\ Rabs (F k - pixel_value phi dl Ny k) <= u * B) ->
  forall i j, (i < Nx)%nat -> (j < Ny)%nat ->
  Rabs (apply_deriv_f w s Nx Ny dl F (pix Ny i j) - midpoint_derivative w s phi dl (INR i * dl) (INR j * dl)) <= K * dl ^ 2 / 24 + 15 * u * B / dl.
Proof.
  intros w s Nx Ny dl phi K B F HN Hd HP HS HB HF i j Hi Hj. destruct (ends w s Nx Ny HN i j Hi Hj) as (L1 & L2 & _). assert (U := u_pos).
  assert (D : 0 < dl) by (destruct pow_scale as (_ & P & _); destruct Hd; lra). assert (I : 0 < / dl) by (apply Rinv_0_lt_compat, D).
  assert (E1 := C113_derivative_accurate w s Nx Ny dl F HN Hd (fun k Hk => proj1 (HF k Hk)) i j Hi Hj). cbv zeta in E1.
  assert (E2 := quotient_error w s Nx Ny dl phi K HP HS D i j Hi Hj).
  destruct (HF _ L2) as [_ A]. destruct (HF _ L1) as [_ A']. assert (V := HB (INR (diff_to w s Nx Ny i j / Ny) * dl) (INR (diff_to w s Nx Ny i j mod Ny) * dl)). assert (V' := HB (INR (diff_from w s Nx Ny i j / Ny) * dl) (INR (diff_from w s Nx Ny i j mod Ny) * dl)).
  fold (pixel_value phi dl Ny (diff_to w s Nx Ny i j)) in V. fold (pixel_value phi dl Ny (diff_from w s Nx Ny i j)) in V'.
  set (p := pixel_value phi dl Ny (diff_to w s Nx Ny i j)) in *. set (q := pixel_value phi dl Ny (diff_from w s Nx Ny i j)) in *.
  set (a := F (diff_to w s Nx Ny i j)) in *. set (b := F (diff_from w s Nx Ny i j)) in *. set (X := apply_deriv_f _ _ _ _ _ _ _) in *. set (Y := midpoint_derivative _ _ _ _ _ _) in *.
  assert (B0 : 0 <= B) by (eapply Rle_trans; [apply Rabs_pos|exact V]). assert (UB : u * B <= / 1024 * B) by (apply Rmult_le_compat_r; lra).
  assert (Ta : Rabs a <= (1 + / 1024) * B). { replace a with ((a - p) + p) by ring. eapply Rle_trans; [apply Rabs_triang|]. lra. }
  assert (Tb : Rabs b <= (1 + / 1024) * B). { replace b with ((b - q) + q) by ring. eapply Rle_trans; [apply Rabs_triang|]. lra. }
  assert (M1 : 25 / 4 * u * ((Rabs a + Rabs b) / dl) <= 25 / 4 * u * ((2 + / 512) * B / dl)). { apply Rmult_le_compat_l; [lra|]. apply Rmult_le_compat_r; lra. }
  assert (M2 : Rabs ((a - b) / dl - (p - q) / dl) <= 2 * (u * B) / dl).
  { replace ((a - b) / dl - (p - q) / dl) with (((a - p) + - (b - q)) * / dl) by (field; lra). rewrite Rabs_mult, (Rabs_right (/ dl)) by lra. apply Rmult_le_compat_r; [lra|].
    eapply Rle_trans; [apply Rabs_triang|]. rewrite Rabs_Ropp. lra. }
  replace (X - Y) with ((X - (a - b) / dl) + ((a - b) / dl - (p - q) / dl) + ((p - q) / dl - Y)) by ring.
  eapply Rle_trans; [apply Rabs_triang|]. eapply Rle_trans; [apply Rplus_le_compat_r, Rabs_triang|].
  assert (M3 : 25 / 4 * u * ((2 + / 512) * B / dl) + 2 * (u * B) / dl <= 15 * u * B / dl).
  { replace (25 / 4 * u * ((2 + / 512) * B / dl) + 2 * (u * B) / dl) with ((25 / 4 * (2 + / 512) + 2) * (u * B / dl)) by (field; lra). replace (15 * u * B / dl) with (15 * (u * B / dl)) by (field; lra).
    apply Rmult_le_compat_r; [apply Rmult_le_pos; [apply Rmult_le_pos; lra|lra]|lra]. }
  lra.
Qed.

(** neighbouring values that agree in most digits: the derivative can be off by a quarter of itself *)
Lemma three_halves : fl (1 / fl (2 / 3)) = 3 / 2 /\ fl (2 / 3) = 6004799503160661 * / 2 ^ 53 /\ fl (3 / 2 * (1 + / 2 ^ 52)) = 3 / 2 + 2 * / 2 ^ 52.
Proof.
  destruct c_values as (E1 & E3 & _). rewrite !(pow_IZR 2 53), !(pow_IZR 2 52).
  set (c2 := @BinarySingleNaN.B754_finite 53 1024 false 4503599627370496 (-51) eq_refl : f64).
  assert (E2 : BinarySingleNaN.B2R c2 = 2) by (unfold c2, BinarySingleNaN.B2R, F2R, Fnum, Fexp, cond_Zopp, bpow; cbn -[IZR]; lra).
  destruct (f64_div_spec c2 c3 6004799503160661 (-53)) as [A A']; [lra|vm_compute; reflexivity|]. rewrite E2, E3 in A.
  assert (NZ : BinarySingleNaN.B2R (f64_div c2 c3) <> 0). { rewrite A'. apply Rgt_not_eq, Rmult_lt_0_compat; [apply IZR_lt; reflexivity|apply bpow_gt_0]. }
  destruct (f64_div_spec c1 (f64_div c2 c3) 6755399441055744 (-52)) as [D _]; [exact NZ|vm_compute; reflexivity|]. rewrite E1, A', <- A in D.
  split; [rewrite D; unfold bpow; cbn -[IZR]; lra|]. split; [rewrite A; unfold bpow; cbn -[IZR]; lra|].
  set (c15 := @BinarySingleNaN.B754_finite 53 1024 false 6755399441055744 (-52) eq_refl : f64). set (cn := @BinarySingleNaN.B754_finite 53 1024 false 4503599627370497 (-52) eq_refl : f64).
  assert (E15 : BinarySingleNaN.B2R c15 = 3 / 2) by (unfold c15, BinarySingleNaN.B2R, F2R, Fnum, Fexp, cond_Zopp, bpow; cbn -[IZR]; lra).
  assert (En : BinarySingleNaN.B2R cn = 1 + / IZR (2 ^ 52)) by (unfold cn, BinarySingleNaN.B2R, F2R, Fnum, Fexp, cond_Zopp, bpow; cbn -[IZR]; lra).
  change (2 ^ Z.of_nat 52)%Z with (2 ^ 52)%Z. rewrite <- E15, <- En, (f64_mult_spec c15 cn 6755399441055746 (-52)) by (vm_compute; reflexivity). rewrite E15. unfold bpow. cbn -[IZR]. lra.
Qed.
Theorem C113_relative_error_refuted : ~ (forall w s Nx Ny dl (x : nat -> R), (2 <= pixels_along w Nx Ny)%nat -> b64 dl -> moderate dl -> (forall k, b64 (x k) /\ in_range (x k)) ->
  forall i j, (i < Nx)%nat -> (j < Ny)%nat -> let d := (x (diff_to w s Nx Ny i j) - x (diff_from w s Nx Ny i j)) / dl in
  Rabs (apply_deriv_f w s Nx Ny dl x (pix Ny i j) - d) <= / 4 * Rabs d).
Proof.
  intro H. destruct three_halves as (A & V & P). assert (M : forall t, / 4 <= t <= 4 -> moderate t).
  { intros t Ht. unfold moderate. rewrite !powerRZ_bpow. split.
    - apply Rle_trans with (bpow radix2 (-2)); [apply bpow_le; lia|]. cbn -[IZR]. lra.
    - apply Rle_trans with (bpow radix2 2); [|apply bpow_le; lia]. cbn -[IZR]. lra. }
  assert (V' : / 4 <= fl (2 / 3) <= 4 /\ 0 < / 2 ^ 52 <= 1). { rewrite V, (pow_IZR 2 53), (pow_IZR 2 52). cbn -[IZR]. lra. }
  set (x := fun k : nat => if Nat.eqb k 1 then 1 + / 2 ^ 52 else 1).
  specialize (H AxX Fwd 2%nat 1%nat (fl (2 / 3)) x (le_n 2) (fl_b64 _) (M _ (proj1 V'))).
  assert (X : forall k, b64 (x k) /\ in_range (x k)).
  { intro k. assert (1 <= x k) by (unfold x; destruct (Nat.eqb k 1); lra). split; [|right; destruct (M 1 ltac:(lra)); rewrite Rabs_right by lra; lra].
    unfold x. destruct (Nat.eqb k 1); [|apply (b64_IZR 1); reflexivity]. exists 4503599627370497%Z, (-52)%Z. rewrite powerRZ_bpow, (pow_IZR 2 52). unfold bpow. cbn -[IZR]. split; [lra|lia]. }
  specialize (H X 0%nat 0%nat ltac:(lia) ltac:(lia)). cbv zeta in H. rewrite row_value in H by (cbn; lia).
  change (pixels_along AxX 2 1) with (2 ^ 1)%nat in H. rewrite C113_step_power_of_two in H by apply fl_b64.
  change (x (diff_to AxX Fwd 2 1 0 0)) with (1 + / 2 ^ 52) in H. change (x (diff_from AxX Fwd 2 1 0 0)) with 1 in H.
  rewrite A, P, Rmult_1_r in H.
  rewrite (fl_id (3 / 2)) in H by (exists 3%Z, (-1)%Z; change (powerRZ 2 (-1)) with (/ (2 * 1)); split; [lra|split; lia]).
  replace (3 / 2 + 2 * / 2 ^ 52 - 3 / 2) with (2 * / 2 ^ 52) in H by ring. replace (1 + / 2 ^ 52 - 1) with (/ 2 ^ 52) in H by ring.
  rewrite (fl_id (2 * / 2 ^ 52)) in H by (exists 2%Z, (-52)%Z; rewrite powerRZ_bpow, (pow_IZR 2 52); unfold bpow; cbn -[IZR]; split; [lra|lia]).
  set (t := / 2 ^ 52) in *. set (d := fl (2 / 3)) in *.
  assert (D : 665 / 1000 <= d <= 667 / 1000) by (rewrite V, (pow_IZR 2 53); cbn -[IZR]; lra).
  assert (L : t / d <= 1504 / 1000 * t). { unfold Rdiv. rewrite Rmult_comm. apply Rmult_le_compat_r; [lra|]. replace (1504 * / 1000) with (/ (1000 / 1504)) by field. apply Rinv_le_contravar; lra. }
  assert (L0 : 0 <= t / d) by (apply Rmult_le_pos; [lra|apply Rlt_le, Rinv_0_lt_compat; lra]).
  rewrite (Rabs_right (2 * t - t / d)), (Rabs_right (t / d)) in H by lra. lra.
Qed.

(** the hypotheses are met: steps of 0.1, and a cosine along three columns of two pixels *)
Definition ripple (x y : R) : R := fam (PI / 6) 1 0 x.
Lemma smooth_const n v : smooth (S n) 1 (fun _ => v).
Proof.
  intro t. split; [intros k _; apply ex_derive_n_const|]. rewrite Derive_n_const. rewrite Rabs_R0. lra.
Qed.
Example C113_met :
  (moderate (fl (1 / 10)) /\ b64 (fl (1 / 10)) /\ step_f 3 (fl (1 / 10)) <> fl (1 / 10) /\ step_f 32 (fl (1 / 10)) = fl (1 / 10)) /\
  (moderate 4 /\ (forall x y, ripple (x + INR 3 * 4) y = ripple x y /\ ripple x (y + INR 2 * 4) = ripple x y) /\
   (forall x y, smooth 3 1 (fun t => ripple t y) /\ smooth 3 1 (fun t => ripple x t)) /\ (forall x y, Rabs (ripple x y) <= 1) /\
   exists F, F 0%nat <> F 2%nat /\ forall k, (k < 3 * 2)%nat -> in_range (F k) /\ Rabs (F k - pixel_value ripple 4 2 k) <= u * 1).
Proof.
  assert (M0 : forall t, / 16 <= t <= 4 -> moderate t).
  { intros t Ht. unfold moderate. rewrite !powerRZ_bpow. split.
    - apply Rle_trans with (bpow radix2 (-4)); [apply bpow_le; lia|]. cbn -[IZR]. lra.
    - apply Rle_trans with (bpow radix2 2); [|apply bpow_le; lia]. cbn -[IZR]. lra. }
  split.
  - destruct three_steps as [A B]. rewrite (pow_IZR 2 56) in A, B. 
    split; [apply M0; rewrite A; cbn -[IZR]; lra|]. split; [apply fl_b64|]. split; [rewrite B, A; cbn -[IZR]; lra|]. apply (C113_step_power_of_two 5), fl_b64.
  - split; [apply M0; lra|]. assert (V : forall x y, ripple x y = cos (PI / 6 * x)) by (intros; unfold ripple, fam; ring). assert (PI4 := PI_4). assert (PIp := PI_RGT_0). 
    split; [|split; [|split]].
    + intros x y. rewrite !V. split; [|reflexivity]. replace (INR 3) with 3 by (cbn; lra). replace (PI / 6 * (x + 3 * 4)) with (PI / 6 * x + 2 * INR 1 * PI) by (cbn; field). apply cos_period.
    + intros x y. split; [apply fam_smooth; lra|unfold ripple; exact (smooth_const 2 (fam (PI / 6) 1 0 x))].
    + intros x y. rewrite V. apply Rabs_le, COS_bound.
    + exists (fun k => pixel_value ripple 4 2 k). assert (E : forall k, pixel_value ripple 4 2 k = cos (PI / 6 * (INR (k / 2) * 4))) by (intro; apply V).
      assert (E0 : cos (PI / 6 * (0 * 4)) = 1) by (rewrite Rmult_0_l, Rmult_0_r; apply cos_0).
      assert (E1 : cos (PI / 6 * (1 * 4)) = - / 2) by (replace (PI / 6 * (1 * 4)) with (2 * (PI / 3)) by field; rewrite cos_2PI3; lra).
      assert (E2 : cos (PI / 6 * (2 * 4)) = - / 2). { replace (PI / 6 * (2 * 4)) with (- (2 * (PI / 3)) + 2 * INR 1 * PI) by (cbn; field). rewrite cos_period, cos_neg, cos_2PI3. lra. }
      split.
      * rewrite !E. change (0 / 2)%nat with 0%nat. change (2 / 2)%nat with 1%nat. cbn [INR]. rewrite E0, E1. lra.
      * intros k Hk. rewrite Rminus_diag_eq by reflexivity. rewrite Rabs_R0. split; [|assert (W := u_pos); lra]. right.
        assert (G : / 2 <= Rabs (pixel_value ripple 4 2 k)).
        { assert (C : (k / 2 = 0 \/ k / 2 = 1 \/ k / 2 = 2)%nat) by (assert (k / 2 < 3)%nat by (apply Nat.div_lt_upper_bound; lia); lia).
          rewrite E. destruct C as [C|[C|C]]; rewrite C; [change (INR 0) with 0; rewrite E0, Rabs_R1; lra|change (INR 1) with 1; rewrite E1|replace (INR 2) with 2 by (cbn; lra); rewrite E2]; rewrite Rabs_Ropp, Rabs_right; lra. }
        destruct pow_scale as (_ & P & _). lra.
Qed.
