(** C110: accuracy of the finite differences. *)
From Coq Require Import Reals Lra Lia List ZArith Arith Bool String Classical.
From Coquelicot Require Import Coquelicot.
From Verif Require Import Base Linear MCore MSim MFilter MOpt MMode Spec PCore PSim PEx PExOpt PMode PWeak PropsCore PropsNl PropsSolve PropsLin PropsFlux PSolv PropsSolv PropsWave.
Import ListNotations.
Local Open Scope nat_scope.

(** ** Specification *)
(** f has n derivatives everywhere, and the n-th is at most K in absolute value *)
Definition smooth (n : nat) (K : R) (f : R -> R) : Prop :=
  forall t, (forall k, k <= n -> ex_derive_n f k t) /\ (Rabs (Derive_n f n t) <= K)%R.
(** the same for the real and imaginary parts of a field of the plane, along both axes *)
Definition smooth_field (n : nat) (K : R) (u : R -> R -> C) : Prop :=
  forall x y, smooth n K (fun t => Re (u t y)) /\ smooth n K (fun t => Im (u t y)) /\
              smooth n K (fun t => Re (u x t)) /\ smooth n K (fun t => Im (u x t)).
(** its derivatives *)
Definition d_dx (n : nat) (u : R -> R -> C) (x y : R) : C := (Derive_n (fun t => Re (u t y)) n x, Derive_n (fun t => Im (u t y)) n x).
Definition d_dy (n : nat) (u : R -> R -> C) (x y : R) : C := (Derive_n (fun t => Re (u x t)) n y, Derive_n (fun t => Im (u x t)) n y).
(** the field repeats with the period of the simulated domain *)
Definition periodic (X Y : R) (u : R -> R -> C) : Prop := forall x y, u (x + X)%R y = u x y /\ u x (y + Y)%R = u x y.
(** its values at the pixels; lengths are in units of L0 *)
Definition at_pixels (dl : R) (Ny : nat) (u : R -> R -> C) (k : nat) : C := u (INR (k / Ny) * dl)%R (INR (k mod Ny) * dl)%R.
(** root mean square over the pixels *)
Definition rms (n : nat) (v : nat -> C) : R := sqrt (rsum n (fun k => Cmod (v k) ^ 2)%R / INR n).

(** ** Taylor expansions *)
Lemma taylor3 f t h : (forall x k, k <= 3 -> ex_derive_n f k x) -> (0 < h)%R ->
  exists z, f (t + h)%R = (f t + h * Derive_n f 1 t + h ^ 2 / 2 * Derive_n f 2 t + h ^ 3 / 6 * Derive_n f 3 z)%R.
Proof.
  intros H Hh. destruct (Taylor_Lagrange f 2 t (t + h)%R) as (z & _ & E); [lra|intros x _ k Hk; apply H; exact Hk|].
  exists z. rewrite E. replace (t + h - t)%R with h by ring. cbn [sum_f_R0 pow]. change (Derive_n f 0 t) with (f t).
  change (fact 0) with 1%nat. change (fact 1) with 1%nat. change (fact 2) with 2%nat. change (fact 3) with 6%nat.
  replace (INR 6) with 6%R by (cbn; lra). replace (INR 2) with 2%R by (cbn; lra). replace (INR 1) with 1%R by reflexivity. field.
Qed.
Lemma taylor4 f t h : (forall x k, k <= 4 -> ex_derive_n f k x) -> (0 < h)%R ->
  exists z, f (t + h)%R = (f t + h * Derive_n f 1 t + h ^ 2 / 2 * Derive_n f 2 t + h ^ 3 / 6 * Derive_n f 3 t + h ^ 4 / 24 * Derive_n f 4 z)%R.
Proof.
  intros H Hh. destruct (Taylor_Lagrange f 3 t (t + h)%R) as (z & _ & E); [lra|intros x _ k Hk; apply H; exact Hk|].
  exists z. rewrite E. replace (t + h - t)%R with h by ring. cbn [sum_f_R0 pow]. change (Derive_n f 0 t) with (f t).
  change (fact 0) with 1%nat. change (fact 1) with 1%nat. change (fact 2) with 2%nat. change (fact 3) with 6%nat. change (fact 4) with 24%nat.
  replace (INR 24) with 24%R by (cbn; lra). replace (INR 6) with 6%R by (cbn; lra). replace (INR 2) with 2%R by (cbn; lra). replace (INR 1) with 1%R by reflexivity. field.
Qed.
Lemma opp_derive f n x : (forall x k, k <= n -> ex_derive_n f k x) ->
  forall k, k <= n -> ex_derive_n (fun t => f (- t)%R) k x /\ Derive_n (fun t => f (- t)%R) k x = ((-1) ^ k * Derive_n f k (- x))%R.
Proof.
  intros H k Hk. assert (L : locally (- x)%R (fun y => forall k', k' <= k -> ex_derive_n f k' y)) by (apply filter_forall; intros y k' Hk'; apply H; lia).
  split; [apply ex_derive_n_comp_opp|apply Derive_n_comp_opp]; exact L.
Qed.
Lemma second_diff K f t h : smooth 4 K f -> (0 < h)%R ->
  (Rabs (f (t + h)%R + f (t - h)%R - 2 * f t - h ^ 2 * Derive_n f 2 t) <= K * h ^ 4 / 12)%R.
Proof.
  intros H Hh. assert (HD : forall x k, k <= 4 -> ex_derive_n f k x) by (intros x; apply (H x)).
  destruct (taylor4 f t h HD Hh) as (z1 & E1).
  assert (O := fun x => opp_derive f 4 x HD).
  destruct (taylor4 (fun t => f (- t)%R) (- t)%R h (fun x k Hk => proj1 (O x k Hk)) Hh) as (z2 & E2).
  rewrite !(fun x k Hk => proj2 (O x k Hk)) in E2 by lia. cbv beta in E2. rewrite Ropp_involutive in E2.
  replace (- (- t + h))%R with (t - h)%R in E2 by ring. rewrite E1, E2. cbn [pow].
  destruct (H z1) as (_ & B1). destruct (H (- z2)%R) as (_ & B2).
  match goal with |- (Rabs ?x <= _)%R => replace x with (h ^ 4 / 24 * (Derive_n f 4 z1 + Derive_n f 4 (- z2)))%R by field end.
  rewrite Rabs_mult, (Rabs_right (h ^ 4 / 24)) by (assert (0 < h ^ 4)%R by (apply pow_lt; exact Hh); lra).
  assert (T := Rabs_triang (Derive_n f 4 z1) (Derive_n f 4 (- z2))). assert (P : (0 < h ^ 4)%R) by (apply pow_lt; exact Hh).
  apply Rle_trans with (h ^ 4 / 24 * (K + K))%R; [apply Rmult_le_compat_l; lra|]. cbn [pow]. lra.
Qed.
Lemma first_diff K f t h : smooth 3 K f -> (0 < h)%R ->
  (Rabs (f (t + h / 2)%R - f (t - h / 2)%R - h * Derive f t) <= K * h ^ 3 / 24)%R.
Proof.
  intros H Hh. assert (HD : forall x k, k <= 3 -> ex_derive_n f k x) by (intros x; apply (H x)). assert (Hh2 : (0 < h / 2)%R) by lra.
  destruct (taylor3 f t (h / 2)%R HD Hh2) as (z1 & E1).
  assert (O := fun x => opp_derive f 3 x HD).
  destruct (taylor3 (fun t => f (- t)%R) (- t)%R (h / 2)%R (fun x k Hk => proj1 (O x k Hk)) Hh2) as (z2 & E2).
  rewrite !(fun x k Hk => proj2 (O x k Hk)) in E2 by lia. cbv beta in E2. rewrite Ropp_involutive in E2.
  replace (- (- t + h / 2))%R with (t - h / 2)%R in E2 by field. rewrite E1, E2. cbn [pow]. change (Derive_n f 1 t) with (Derive f t).
  destruct (H z1) as (_ & B1). destruct (H (- z2)%R) as (_ & B2).
  match goal with |- (Rabs ?x <= _)%R => replace x with (h ^ 3 / 48 * (Derive_n f 3 z1 + Derive_n f 3 (- z2)))%R by field end.
  assert (P : (0 < h ^ 3)%R) by (apply pow_lt; exact Hh).
  rewrite Rabs_mult, (Rabs_right (h ^ 3 / 48)) by lra.
  assert (T := Rabs_triang (Derive_n f 3 z1) (Derive_n f 3 (- z2))).
  apply Rle_trans with (h ^ 3 / 48 * (K + K))%R; [apply Rmult_le_compat_l; lra|]. cbn [pow]. lra.
Qed.
Lemma pixel_diff K f t h : smooth 3 K f -> (0 < h)%R ->
  (Rabs (f t - f (t - h)%R - h * Derive f t + h ^ 2 / 2 * Derive_n f 2 t) <= K * h ^ 3 / 6)%R.
Proof.
  intros H Hh. assert (HD : forall x k, k <= 3 -> ex_derive_n f k x) by (intros x; apply (H x)).
  assert (O := fun x => opp_derive f 3 x HD).
  destruct (taylor3 (fun t => f (- t)%R) (- t)%R h (fun x k Hk => proj1 (O x k Hk)) Hh) as (z2 & E2).
  rewrite !(fun x k Hk => proj2 (O x k Hk)) in E2 by lia. cbv beta in E2. rewrite Ropp_involutive in E2.
  replace (- (- t + h))%R with (t - h)%R in E2 by ring. rewrite E2. cbn [pow]. change (Derive_n f 1 t) with (Derive f t).
  destruct (H (- z2)%R) as (_ & B2).
  match goal with |- (Rabs ?x <= _)%R => replace x with (h ^ 3 / 6 * Derive_n f 3 (- z2))%R by field end.
  assert (P : (0 < h ^ 3)%R) by (apply pow_lt; exact Hh).
  rewrite Rabs_mult, (Rabs_right (h ^ 3 / 6)) by lra.
  apply Rle_trans with (h ^ 3 / 6 * K)%R; [apply Rmult_le_compat_l; lra|]. cbn [pow]. lra.
Qed.
Lemma at_pix dl Ny u i j : j < Ny -> at_pixels dl Ny u (pix Ny i j) = u (INR i * dl)%R (INR j * dl)%R.
Proof. intro Hj. unfold at_pixels, pix. rewrite flat_div, flat_mod by exact Hj. reflexivity. Qed.
Lemma next_cases N i : i < N -> next N i = S i \/ (next N i = 0 /\ S i = N).
Proof. intro Hi. unfold next. destruct (Nat.eqb_spec (S i) N); [right; split; [reflexivity|assumption]|left; reflexivity]. Qed.
Lemma step N dl (g : R -> C) : (forall x, g (x + INR N * dl)%R = g x) -> forall i, i < N ->
  g (INR (next N i) * dl)%R = g (INR i * dl + dl)%R /\ g (INR (prev N i) * dl)%R = g (INR i * dl - dl)%R.
Proof.
  intros Hp.
  assert (F : forall i, i < N -> g (INR (next N i) * dl)%R = g (INR i * dl + dl)%R).
  { intros i Hi. destruct (next_cases N i Hi) as [->|(-> & E)].
    - rewrite S_INR. f_equal. ring.
    - replace (INR i * dl + dl)%R with (INR 0 * dl + INR N * dl)%R by (rewrite <- E, S_INR; cbn [INR]; ring). symmetry. apply Hp. }
  intros i Hi. split; [apply F; exact Hi|].
  assert (HP := prev_lt N i Hi).
  destruct (next_cases N (prev N i) HP) as [E|(E & EN)]; rewrite next_prev in E by exact Hi.
  - assert (EI : INR i = (INR (prev N i) + 1)%R) by (rewrite <- S_INR, <- E; reflexivity). rewrite EI. f_equal. ring.
  - assert (EI : INR i = 0%R) by (rewrite E; reflexivity). assert (EP : INR N = (INR (prev N i) + 1)%R) by (rewrite <- S_INR, EN; reflexivity).
    rewrite EI, <- (Hp (0 * dl - dl)%R). f_equal. rewrite EP. ring.
Qed.
Section Grid.
Variables (Nx Ny : nat) (dl : R) (u : R -> R -> C).
Hypotheses (Hd : (0 < dl)%R) (Hper : periodic (INR Nx * dl) (INR Ny * dl) u).
Lemma at_next_x i j : i < Nx -> j < Ny -> at_pixels dl Ny u (pix Ny (next Nx i) j) = u (INR i * dl + dl)%R (INR j * dl)%R.
Proof. intros Hi Hj. rewrite at_pix by exact Hj. exact (proj1 (step Nx dl (fun x => u x (INR j * dl)%R) (fun x => proj1 (Hper x _)) i Hi)). Qed.
Lemma at_prev_x i j : i < Nx -> j < Ny -> at_pixels dl Ny u (pix Ny (prev Nx i) j) = u (INR i * dl - dl)%R (INR j * dl)%R.
Proof. intros Hi Hj. rewrite at_pix by exact Hj. exact (proj2 (step Nx dl (fun x => u x (INR j * dl)%R) (fun x => proj1 (Hper x _)) i Hi)). Qed.
Lemma at_next_y i j : i < Nx -> j < Ny -> at_pixels dl Ny u (pix Ny i (next Ny j)) = u (INR i * dl)%R (INR j * dl + dl)%R.
Proof. intros Hi Hj. rewrite at_pix by (apply next_lt; exact Hj). exact (proj1 (step Ny dl (fun y => u (INR i * dl)%R y) (fun y => proj2 (Hper _ y)) j Hj)). Qed.
Lemma at_prev_y i j : i < Nx -> j < Ny -> at_pixels dl Ny u (pix Ny i (prev Ny j)) = u (INR i * dl)%R (INR j * dl - dl)%R.
Proof. intros Hi Hj. rewrite at_pix by (apply prev_lt; exact Hj). exact (proj2 (step Ny dl (fun y => u (INR i * dl)%R y) (fun y => proj2 (Hper _ y)) j Hj)). Qed.
Lemma Cmod_parts z B : (Rabs (Re z) <= B)%R -> (Rabs (Im z) <= B)%R -> (Cmod z <= sqrt 2 * B)%R.
Proof.
  intros H1 H2. assert (HB : (0 <= B)%R) by (eapply Rle_trans; [apply Rabs_pos|exact H1]).
  replace (sqrt 2 * B)%R with (sqrt (2 * B ^ 2)) by (rewrite sqrt_mult_alt by lra; f_equal; apply sqrt_pow2; exact HB).
  unfold Cmod. apply sqrt_le_1_alt. unfold Re, Im in *.
  assert (A1 : (fst z ^ 2 <= B ^ 2)%R) by (apply pow_maj_Rabs; exact H1).
  assert (A2 : (snd z ^ 2 <= B ^ 2)%R) by (apply pow_maj_Rabs; exact H2). lra.
Qed.
Lemma laplace_error K i j : smooth_field 4 K u -> i < Nx -> j < Ny ->
  (Cmod (laplacian dl Nx Ny (at_pixels dl Ny u) i j - (d_dx 2 u (INR i * dl) (INR j * dl) + d_dy 2 u (INR i * dl) (INR j * dl)))%C <= sqrt 2 * (K * dl ^ 2 / 6))%R.
Proof.
  intros HS Hi Hj. unfold laplacian. rewrite at_next_x, at_prev_x, at_next_y, at_prev_y, at_pix by assumption.
  set (x := (INR i * dl)%R). set (y := (INR j * dl)%R). destruct (HS x y) as (S1 & S2 & S3 & S4).
  assert (B1 := second_diff K _ x dl S1 Hd). assert (B2 := second_diff K _ x dl S2 Hd). assert (B3 := second_diff K _ y dl S3 Hd). assert (B4 := second_diff K _ y dl S4 Hd).
  cbv beta in B1, B2, B3, B4.
  assert (G : forall a1 a2 a3 a4 a5 p q : R, (Rabs (a1 + a2 - 2 * a5 - dl ^ 2 * p) <= K * dl ^ 4 / 12)%R -> (Rabs (a3 + a4 - 2 * a5 - dl ^ 2 * q) <= K * dl ^ 4 / 12)%R ->
     (Rabs ((a1 + a2 + a3 + a4 - 4 * a5) / (dl * dl) - (p + q)) <= K * dl ^ 2 / 6)%R).
  { intros a1 a2 a3 a4 a5 p q G1 G2.
    replace ((a1 + a2 + a3 + a4 - 4 * a5) / (dl * dl) - (p + q))%R with (((a1 + a2 - 2 * a5 - dl ^ 2 * p) + (a3 + a4 - 2 * a5 - dl ^ 2 * q)) * / dl ^ 2)%R by (field; lra).
    assert (P : (0 < / dl ^ 2)%R) by (apply Rinv_0_lt_compat, pow_lt; exact Hd).
    rewrite Rabs_mult, (Rabs_right (/ dl ^ 2)) by lra.
    replace (K * dl ^ 2 / 6)%R with ((K * dl ^ 4 / 12 + K * dl ^ 4 / 12) * / dl ^ 2)%R by (field; lra).
    apply Rmult_le_compat_r; [lra|]. eapply Rle_trans; [apply Rabs_triang|]. lra. }
  replace ((u (x + dl)%R y + u (x - dl)%R y + u x (y + dl)%R + u x (y - dl)%R - RtoC 4 * u x y) / RtoC (dl * dl))%C
    with ((Re (u (x + dl)%R y) + Re (u (x - dl)%R y) + Re (u x (y + dl)%R) + Re (u x (y - dl)%R) - 4 * Re (u x y)) / (dl * dl),
          (Im (u (x + dl)%R y) + Im (u (x - dl)%R y) + Im (u x (y + dl)%R) + Im (u x (y - dl)%R) - 4 * Im (u x y)) / (dl * dl))%R.
  - apply Cmod_parts; unfold Re, Im, d_dx, d_dy, Cminus, Cplus, Copp; cbn [fst snd]; apply G; assumption.
  - unfold Cdiv. rewrite <- RtoC_inv by nra. unfold Re, Im, RtoC, Cminus, Cplus, Copp, Cmult. apply injective_projections; cbn [fst snd]; field; lra.
Qed.
Lemma diff_error (v1 v0 w : C) B : (Rabs (Re v1 - Re v0 - dl * Re w) <= B)%R -> (Rabs (Im v1 - Im v0 - dl * Im w) <= B)%R ->
  (Cmod ((v1 - v0) / RtoC dl - w)%C <= sqrt 2 * (B / dl))%R.
Proof.
  intros H1 H2. assert (P : (0 < / dl)%R) by (apply Rinv_0_lt_compat; exact Hd).
  assert (G : forall a b, (Rabs a <= B)%R -> b = (a * / dl)%R -> (Rabs b <= B / dl)%R).
  { intros a b Ha ->. rewrite Rabs_mult, (Rabs_right (/ dl)) by lra. apply Rmult_le_compat_r; lra. }
  unfold Cdiv. rewrite <- RtoC_inv by lra. apply Cmod_parts.
  - apply (G _ _ H1). unfold Re, RtoC, Cminus, Cplus, Copp, Cmult. cbn [fst snd]. field. lra.
  - apply (G _ _ H2). unfold Im, RtoC, Cminus, Cplus, Copp, Cmult. cbn [fst snd]. field. lra.
Qed.
End Grid.
(** ** Fourier sums *)
Lemma parseval1 N (y : nat -> C) : rsum N (fun a => Cnorm2 (csum N (fun i => (Cconj (wave N a i) * y i)%C))) = (INR N * rsum N (fun i => Cnorm2 (y i)))%R.
Proof.
  apply RtoC_inj. rewrite RtoC_mult, !RtoC_rsum.
  rewrite (csum_ext N _ (fun a => csum N (fun i => csum N (fun i' => (wave N a i * Cconj (wave N a i') * (Cconj (y i) * y i'))%C)))).
  - rewrite csum_swap. rewrite <- csum_scal. apply csum_ext. intros i Hi. rewrite csum_swap.
    rewrite (csum_single N i); [|exact Hi|].
    + rewrite csum_scal_r, waves_orth, Nat.eqb_refl, Cconj_self by assumption. reflexivity.
    + intros k Hk Hne. rewrite csum_scal_r, waves_orth by assumption. destruct (Nat.eqb_spec i k); [congruence|ring].
  - intros a Ha. rewrite <- Cconj_self, Cconj_csum, <- csum_scal_r. apply csum_ext. intros i Hi. rewrite <- csum_scal. apply csum_ext. intros i' Hi'.
    rewrite Cconj_mult, Cconj_invol. ring.
Qed.
Lemma parseval Nx Ny (x : vec) :
  rsum Nx (fun a => rsum Ny (fun b => Cnorm2 (csum (Nx * Ny) (fun r => (Cconj (plane Nx Ny a b r) * x r)%C)))) = (INR (Nx * Ny) * rsum (Nx * Ny) (fun k => Cnorm2 (x k)))%R.
Proof.
  rewrite rsum_swap.
  rewrite (rsum_ext Ny _ (fun b => (INR Nx * rsum Nx (fun i => Cnorm2 (csum Ny (fun j => (Cconj (wave Ny b j) * x (pix Ny i j))%C))))%R)).
  - rewrite rsum_scal, rsum_swap.
    rewrite (rsum_ext Nx _ (fun i => (INR Ny * rsum Ny (fun j => Cnorm2 (x (pix Ny i j))))%R)).
    + rewrite rsum_scal, mult_INR, rsum_flat. unfold pix. ring.
    + intros i Hi. apply (parseval1 Ny (fun j => x (pix Ny i j))).
  - intros b Hb. rewrite <- parseval1. apply rsum_ext. intros a Ha. f_equal. rewrite csum_flat. apply csum_ext. intros i Hi. rewrite <- csum_scal.
    apply csum_ext. intros j Hj. fold (pix Ny i j). rewrite plane_pix by exact Hj. rewrite Cconj_mult. ring.
Qed.

Section Bound.
Variables (omega : R) (eps : nd R) (dl : R) (p : string) (L0 e0 : R) (s : sim) (delta : R).
Hypothesis H : uniform_sim omega eps dl p L0 e0 s.
Notation Nx := (nd_nx eps). Notation Ny := (nd_ny eps). Notation M := (nd_nx eps * nd_ny eps).
Notation P := (if String.eqb p "Ez" then PolEz else PolHz).
Notation m := (inertia P L0 e0).
Hypotheses (Hdelta : (0 < delta)%R) (Hgap : forall a b, a < Nx -> b < Ny -> (delta <= Rabs (medium omega L0 e0 - lattice (phase Nx a) (phase Ny b) dl))%R).
Lemma b_herm u v : csum M (fun r => (Cconj (u r) * mv M (s_A s) v r)%C) = Cconj (csum M (fun r => (Cconj (v r) * mv M (s_A s) u r)%C)).
Proof.
  destruct (w_facts _ _ _ _ _ _ _ H) as (Hw & HL & _ & _ & _ & _ & _ & _ & _ & _ & EA). assert (HD := w_dL _ _ _ _ _ _ _ H).
  destruct H as (_ & Hd & H2 & H3 & H0 & Hu). rewrite EA. assert (PNx : 0 < Nx) by lia. assert (PNy : 0 < Ny) by lia.
  apply herm; try assumption; apply side_pos; assumption.
Qed.
Lemma b_hat (v : vec) a b : a < Nx -> b < Ny ->
  csum M (fun r => (Cconj (plane Nx Ny a b r) * mv M (s_A s) v r)%C) =
  (RtoC ((medium omega L0 e0 - lattice (phase Nx a) (phase Ny b) dl) / m) * csum M (fun r => (Cconj (plane Nx Ny a b r) * v r)%C))%C.
Proof.
  intros Ha Hb. rewrite b_herm, Cconj_csum, <- csum_scal. apply csum_ext. intros r Hr.
  rewrite (mv_ext_v M _ (plane Nx Ny a b) (plane_wave (phase Nx a) (phase Ny b) Ny)) by (intros q _; apply plane_is).
  rewrite (w_A _ _ _ _ _ _ _ H a b r Hr), <- plane_is, !Cconj_mult, Cconj_invol, Cconj_RtoC. ring.
Qed.
Lemma b_coercive (v : vec) : (delta * nrm M v <= m * nrm M (mv M (s_A s) v))%R.
Proof.
  assert (Hm := w_inertia _ _ _ _ _ _ _ H).
  apply Rsqr_incr_0_var; [|apply Rmult_le_pos; [lra|apply nrm_ge0]]. rewrite !Rsqr_mult, !Rsqr_pow2, !nrm_sq.
  assert (HM : (0 < INR M)%R).
  { destruct H as (_ & _ & H2 & H3 & _). apply lt_0_INR, Nat.mul_pos_pos; lia. }
  apply Rmult_le_reg_l with (INR M); [exact HM|].
  replace (INR M * (delta ^ 2 * rsum M (fun k => Cnorm2 (v k))))%R with (delta ^ 2 * (INR M * rsum M (fun k => Cnorm2 (v k))))%R by ring.
  replace (INR M * (m ^ 2 * rsum M (fun k => Cnorm2 (mv M (s_A s) v k))))%R with (m ^ 2 * (INR M * rsum M (fun k => Cnorm2 (mv M (s_A s) v k))))%R by ring.
  rewrite <- !parseval, <- !rsum_scal. apply rsum_le. intros a Ha. rewrite <- !rsum_scal. apply rsum_le. intros b Hb.
  rewrite b_hat by assumption. set (q := csum M _). assert (Q := Cnorm2_ge0 q). assert (G := Hgap a b Ha Hb).
  set (D := (medium omega L0 e0 - lattice (phase Nx a) (phase Ny b) dl)%R) in *.
  rewrite <- (Cmod2 (RtoC _ * q)%C), Cmod_mult, Rpow_mult_distr, !Cmod2.
  replace (Cnorm2 (RtoC (D / m))) with ((D / m) ^ 2)%R by (unfold Cnorm2, RtoC, Re, Im; cbn [fst snd]; ring).
  replace (m ^ 2 * ((D / m) ^ 2 * Cnorm2 q))%R with (D ^ 2 * Cnorm2 q)%R by (field; lra).
  apply Rmult_le_compat_r; [exact Q|]. rewrite <- (pow2_abs D). apply pow_incr. lra.
Qed.
End Bound.
Section Energy.
Variables (omega : R) (eps : nd R) (dl : R) (p : string) (L0 e0 : R) (s : sim).
Hypothesis H : uniform_sim omega eps dl p L0 e0 s.
Notation Nx := (nd_nx eps). Notation Ny := (nd_ny eps). Notation M := (nd_nx eps * nd_ny eps).
Notation P := (if String.eqb p "Ez" then PolEz else PolHz).
Notation m := (inertia P L0 e0).
Lemma u_A (v : vec) i j : i < Nx -> j < Ny ->
  mv M (s_A s) v (pix Ny i j) = (RtoC (1 / m) * (laplacian dl Nx Ny v i j + RtoC (medium omega L0 e0) * v (pix Ny i j)))%C.
Proof.
  intros Hi Hj. assert (HI := w_inertia _ _ _ _ _ _ _ H). destruct (w_facts _ _ _ _ _ _ _ H) as (Hw & HL & _ & _ & _ & _ & _ & _ & _ & _ & EA). assert (HD := w_dL _ _ _ _ _ _ _ H).
  destruct H as (_ & Hd & H2 & H3 & H0 & Hu). rewrite EA. rewrite medium_is. assert (HE := EPSILON_0_pos). assert (HMU := MU_0_pos).
  assert (Hk : pix Ny i j < M) by (apply flat_lt; assumption). assert (N1 := next_lt Nx i Hi). assert (N2 := next_lt Ny j Hj).
  unfold inertia in *. destruct (String.eqb p "Ez").
  - rewrite (mv_construct_Ez_stencil omega L0 Nx Ny _ _ (cvec (nd_buf eps)) true dl) by (assumption || lra).
    unfold cvec. rewrite Hu by exact Hk. rewrite Cmult_plus_distr_l. f_equal.
    rewrite <- RtoC_mult. rewrite Cmult_assoc, <- RtoC_mult. do 2 f_equal. revert HI HL. generalize MU_0. intros U HI HL. field. nra.
  - assert (Q := mv_construct_Hz_stencil omega L0 Nx Ny _ _ (cvec (nd_buf eps)) true dl v i j H2 H3 Hi Hj HD ltac:(lra)).
    cbv zeta in Q. rewrite Q. rewrite !(eps_dir_uniform L0 Nx Ny true (nd_buf eps) e0) by (assumption || lia).
    set (g := (EPSILON_0 * L0 * e0)%R) in *. rewrite Cmult_plus_distr_l. f_equal.
    + unfold laplacian. unfold Rdiv. rewrite Rmult_1_l, RtoC_inv by lra. replace (RtoC 4) with (RtoC 1 + RtoC 1 + RtoC 1 + RtoC 1)%C by cring.
      field. split; apply RtoC_neq0; nra.
    + rewrite Cmult_assoc, <- RtoC_mult. do 2 f_equal. clearbody g. field. lra.
Qed.
Lemma u_lap (v : vec) i j : i < Nx -> j < Ny ->
  laplacian dl Nx Ny v i j = (mv M (Dxf (s_derivs s)) (mv M (Dxb (s_derivs s)) v) (pix Ny i j) + mv M (Dyf (s_derivs s)) (mv M (Dyb (s_derivs s)) v) (pix Ny i j))%C.
Proof.
  intros Hi Hj. destruct H as (HS & Hd & H2 & H3 & _). assert (HdC : RtoC dl <> RtoC 0) by (apply RtoC_neq0; lra).
  assert (Q := C01_derivatives_are_periodic_differences omega eps dl p L0 s Hd H2 H3 HS).
  assert (N1 := next_lt Nx i Hi). assert (N2 := next_lt Ny j Hj).
  destruct (Q (mv M (Dxb (s_derivs s)) v) i j Hi Hj) as (E1 & _). destruct (Q (mv M (Dyb (s_derivs s)) v) i j Hi Hj) as (_ & _ & E2 & _).
  rewrite E1, E2. unfold diff_xf, diff_yf.
  rewrite !(fun i j Hi Hj => proj1 (proj2 (Q v i j Hi Hj))), !(fun i j Hi Hj => proj2 (proj2 (proj2 (Q v i j Hi Hj)))) by assumption.
  unfold laplacian, diff_xb, diff_yb. rewrite !PCore.prev_next by assumption. rewrite (RtoC_mult dl dl). replace (RtoC 4) with (RtoC 1 + RtoC 1 + RtoC 1 + RtoC 1)%C by cring. field. exact HdC.
Qed.
Lemma u_conj (v : vec) k : k < M -> mv M (Dxb (s_derivs s)) (fun r => Cconj (v r)) k = Cconj (mv M (Dxb (s_derivs s)) v k) /\
  mv M (Dyb (s_derivs s)) (fun r => Cconj (v r)) k = Cconj (mv M (Dyb (s_derivs s)) v k).
Proof.
  intros Hk. destruct (pix_bound _ _ _ Hk) as (i & j & Hi & Hj & ->). destruct H as (HS & Hd & H2 & H3 & _).
  assert (Q := C01_derivatives_are_periodic_differences omega eps dl p L0 s Hd H2 H3 HS).
  rewrite !(fun v i j Hi Hj => proj1 (proj2 (Q v i j Hi Hj))), !(fun v i j Hi Hj => proj2 (proj2 (proj2 (Q v i j Hi Hj)))) by assumption.
  unfold diff_xb, diff_yb, Cdiv. rewrite <- RtoC_inv by lra. rewrite !Cconj_mult, Cconj_RtoC. split; f_equal; cring.
Qed.
Lemma u_energy (v : vec) :
  (nrm M (mv M (Dxb (s_derivs s)) v) ^ 2 + nrm M (mv M (Dyb (s_derivs s)) v) ^ 2 =
   medium omega L0 e0 * nrm M v ^ 2 - m * Re (csum M (fun k => Cconj (v k) * mv M (s_A s) v k)%C))%R.
Proof.
  assert (HI := w_inertia _ _ _ _ _ _ _ H).
  assert (HE : csum M (fun k => (Cconj (v k) * mv M (s_A s) v k)%C) =
    (RtoC (1 / m) * (RtoC (medium omega L0 e0 * nrm M v ^ 2) - RtoC (nrm M (mv M (Dxb (s_derivs s)) v) ^ 2 + nrm M (mv M (Dyb (s_derivs s)) v) ^ 2)))%C).
  { destruct H as (HS & Hd & H2 & H3 & _).
    destruct (C02_summation_by_parts omega eps dl p L0 s Hd H2 H3 HS (fun r => Cconj (v r)) (mv M (Dxb (s_derivs s)) v)) as (E1 & _).
    destruct (C02_summation_by_parts omega eps dl p L0 s Hd H2 H3 HS (fun r => Cconj (v r)) (mv M (Dyb (s_derivs s)) v)) as (_ & E2).
    rewrite !nrm_sq, RtoC_plus, RtoC_mult, !RtoC_rsum.
    rewrite (csum_ext M _ (fun k => (RtoC (1 / m) * (RtoC (medium omega L0 e0) * RtoC (Cnorm2 (v k)) + (Cconj (v k) * mv M (Dxf (s_derivs s)) (mv M (Dxb (s_derivs s)) v) k + Cconj (v k) * mv M (Dyf (s_derivs s)) (mv M (Dyb (s_derivs s)) v) k)))%C)).
    - rewrite csum_scal. f_equal. rewrite !csum_plus, csum_scal, E1, E2.
      rewrite (csum_ext M (fun k => (mv M (Dxb (s_derivs s)) (fun r => Cconj (v r)) k * _)%C) (fun k => RtoC (Cnorm2 (mv M (Dxb (s_derivs s)) v k))))
        by (intros k Hk; rewrite (proj1 (u_conj v k Hk)); apply Cconj_self).
      rewrite (csum_ext M (fun k => (mv M (Dyb (s_derivs s)) (fun r => Cconj (v r)) k * _)%C) (fun k => RtoC (Cnorm2 (mv M (Dyb (s_derivs s)) v k))))
        by (intros k Hk; rewrite (proj2 (u_conj v k Hk)); apply Cconj_self). ring.
    - intros k Hk. destruct (pix_bound _ _ _ Hk) as (i & j & Hi & Hj & ->). rewrite u_A, u_lap, <- Cconj_self by assumption. ring. }
  rewrite HE, <- RtoC_minus, <- RtoC_mult. cbn [Re RtoC fst]. field. lra.
Qed.
Lemma u_cross (v w : vec) d : (0 < d)%R -> (- Re (csum M (fun k => Cconj (v k) * w k)%C) <= (d * nrm M v ^ 2 + nrm M w ^ 2 / d) / 2)%R.
Proof.
  intro Hd. rewrite Re_csum, !nrm_sq. unfold Rdiv. rewrite <- rsum_scal, <- rsum_scal_r, <- rsum_plus, <- rsum_scal_r.
  replace (- rsum M (fun k => Re (Cconj (v k) * w k)%C))%R with (rsum M (fun k => (-1) * Re (Cconj (v k) * w k)%C)%R) by (rewrite rsum_scal; ring).
  apply rsum_le. intros k _. destruct (v k) as [a b], (w k) as [c e]. unfold Cnorm2, Cconj, Cmult, Re, Im. cbn [fst snd].
  assert (S1 := Rle_0_sqr (d * a + c)). assert (S2 := Rle_0_sqr (d * b + e)). unfold Rsqr in *.
  apply Rmult_le_reg_l with (2 * d)%R; [lra|].
  match goal with |- (_ <= ?r)%R => replace r with (d * d * (a * a + b * b) + (c * c + e * e))%R by (field; lra) end. nra.
Qed.
Lemma u_gradient (v : vec) delta : (0 < delta)%R -> (delta * nrm M v <= m * nrm M (mv M (s_A s) v))%R ->
  let g := (sqrt (medium omega L0 e0 / delta ^ 2 + 1 / delta) * (m * nrm M (mv M (s_A s) v)))%R in
  (nrm M (mv M (Dxb (s_derivs s)) v) <= g)%R /\ (nrm M (mv M (Dyb (s_derivs s)) v) <= g)%R.
Proof.
  intros Hd HC g. assert (HI := w_inertia _ _ _ _ _ _ _ H). assert (HE := u_energy v).
  assert (Hmed : (0 <= medium omega L0 e0)%R).
  { destruct H as (_ & _ & _ & _ & H0 & _). unfold medium. apply Rmult_le_pos; [lra|apply pow2_ge_0]. }
  assert (X := u_cross v (mv M (s_A s) v) (delta / m) ltac:(apply Rdiv_lt_0_compat; lra)).
  set (R1 := Re (csum M (fun k => (Cconj (v k) * mv M (s_A s) v k)%C))) in *. clearbody R1.
  assert (N0 := nrm_ge0 M v). assert (N1 := nrm_ge0 M (mv M (s_A s) v)). set (y := nrm M (mv M (s_A s) v)) in *. set (x := nrm M v) in *. clearbody x y.
  assert (N2 := nrm_ge0 M (mv M (Dxb (s_derivs s)) v)). assert (N3 := nrm_ge0 M (mv M (Dyb (s_derivs s)) v)).
  set (gx := nrm M (mv M (Dxb (s_derivs s)) v)) in *. set (gy := nrm M (mv M (Dyb (s_derivs s)) v)) in *. clearbody gx gy.
  assert (Hx : (x ^ 2 <= (m * y) ^ 2 / delta ^ 2)%R).
  { replace ((m * y) ^ 2 / delta ^ 2)%R with ((m * y / delta) ^ 2)%R by (field; lra). apply pow_incr. split; [exact N0|].
    apply Rmult_le_reg_l with delta; [exact Hd|]. replace (delta * (m * y / delta))%R with (m * y)%R by (field; lra). exact HC. }
  assert (HX : (- (m * R1) <= (m * y) ^ 2 / delta)%R).
  { apply Rmult_le_compat_l with (r := m) in X; [|lra].
    replace (m * ((delta / m * x ^ 2 + y ^ 2 / (delta / m)) / 2))%R with ((delta * x ^ 2 + (m * y) ^ 2 / delta) / 2)%R in X by (field; split; lra).
    assert (Y : (delta * x ^ 2 <= (m * y) ^ 2 / delta)%R).
    { apply Rmult_le_compat_l with (r := delta) in Hx; [|lra]. replace (delta * ((m * y) ^ 2 / delta ^ 2))%R with ((m * y) ^ 2 / delta)%R in Hx by (field; lra). exact Hx. }
    lra. }
  set (q := (medium omega L0 e0 / delta ^ 2 + 1 / delta)%R) in *.
  assert (Hq : (0 <= q)%R).
  { unfold q. assert (0 <= medium omega L0 e0 / delta ^ 2)%R by (apply Rmult_le_pos; [exact Hmed|]; apply Rlt_le, Rinv_0_lt_compat, pow_lt; exact Hd).
    assert (0 < 1 / delta)%R by (apply Rdiv_lt_0_compat; lra). lra. }
  assert (HT : (gx ^ 2 + gy ^ 2 <= g ^ 2)%R).
  { unfold g. rewrite Rpow_mult_distr, pow2_sqrt by exact Hq.
    apply Rmult_le_compat_l with (r := medium omega L0 e0) in Hx; [|exact Hmed].
    replace (q * (m * y) ^ 2)%R with (medium omega L0 e0 * ((m * y) ^ 2 / delta ^ 2) + (m * y) ^ 2 / delta)%R by (unfold q; field; lra). lra. }
  assert (G0 : (0 <= g)%R) by (unfold g; apply Rmult_le_pos; [apply sqrt_pos|apply Rmult_le_pos; lra]).
  assert (S1 := pow2_ge_0 gx). assert (S2 := pow2_ge_0 gy).
  split; apply Rsqr_incr_0_var; rewrite ?Rsqr_pow2; lra.
Qed.
End Energy.
Lemma rms_nrm n (v : vec) : 0 < n -> rms n v = (nrm n v / sqrt (INR n))%R.
Proof.
  intro Hn. assert (P : (0 < INR n)%R) by (apply lt_0_INR; exact Hn). unfold rms, nrm. rewrite sqrt_div_alt by exact P. f_equal. f_equal. apply rsum_ext. intros; apply Cmod2.
Qed.
Lemma nrm_bound n (v : vec) B : (0 <= B)%R -> (forall k, k < n -> (Cmod (v k) <= B)%R) -> (nrm n v <= sqrt (INR n) * B)%R.
Proof.
  intros HB H. apply Rsqr_incr_0_var; [|apply Rmult_le_pos; [apply sqrt_pos|exact HB]]. rewrite Rsqr_mult, !Rsqr_pow2, nrm_sq, pow2_sqrt by apply pos_INR.
  rewrite <- rsum_const. apply rsum_le. intros k Hk. rewrite <- Cmod2. apply pow_incr. split; [apply Cmod_ge_0|apply H; exact Hk].
Qed.
Lemma rms_ext n (u v : vec) : (forall k, k < n -> u k = v k) -> rms n u = rms n v.
Proof. intro H. unfold rms. do 2 f_equal. apply rsum_ext. intros k Hk. rewrite H by exact Hk. reflexivity. Qed.
Lemma rms_bound n (v : vec) B : 0 < n -> (0 <= B)%R -> (forall k, k < n -> (Cmod (v k) <= B)%R) -> (rms n v <= B)%R.
Proof.
  intros Hn HB H. rewrite rms_nrm by exact Hn. assert (P : (0 < sqrt (INR n))%R) by (apply sqrt_lt_R0, lt_0_INR; exact Hn).
  apply Rmult_le_reg_l with (sqrt (INR n)); [exact P|]. replace (sqrt (INR n) * (nrm n v / sqrt (INR n)))%R with (nrm n v) by (field; lra). apply nrm_bound; assumption.
Qed.
Lemma rms_plus n (u v : vec) : 0 < n -> (rms n (fun k => u k + v k)%C <= rms n u + rms n v)%R.
Proof.
  intro Hn. rewrite !rms_nrm by exact Hn. assert (P : (0 < sqrt (INR n))%R) by (apply sqrt_lt_R0, lt_0_INR; exact Hn).
  unfold Rdiv. rewrite <- Rmult_plus_distr_r. apply Rmult_le_compat_r; [apply Rlt_le, Rinv_0_lt_compat; exact P|]. apply nrm_plus.
Qed.
Lemma rms_scal n (c : C) (v : vec) : 0 < n -> rms n (fun k => c * v k)%C = (Cmod c * rms n v)%R.
Proof.
  intro Hn. rewrite !rms_nrm by exact Hn. unfold Rdiv. rewrite <- Rmult_assoc. f_equal. unfold nrm.
  rewrite <- (sqrt_pow2 (Cmod c)) by apply Cmod_ge_0. rewrite <- sqrt_mult_alt by apply pow2_ge_0. f_equal. rewrite <- rsum_scal. apply rsum_ext. intros k _.
  rewrite <- !Cmod2, Cmod_mult. ring.
Qed.
Lemma smooth_pos n K f : smooth n K f -> (0 <= K)%R.
Proof. intro H. destruct (H 0%R) as (_ & B). eapply Rle_trans; [apply Rabs_pos|exact B]. Qed.
Lemma no_pml_facts omega eps dl L0 s p : Simulation omega eps dl (Some [0; 0]%Z) p L0 = Ok s -> (0 < dl)%R -> 2 <= nd_nx eps -> 2 <= nd_ny eps ->
  (0 < L0)%R /\ s_M s = nd_nx eps * nd_ny eps /\ s_Nx s = nd_nx eps /\ s_Ny s = nd_ny eps /\
  s_A s = fst (construct_A omega (0, INR (nd_nx eps) * dl)%R (0, INR (nd_ny eps) * dl)%R (nd_nx eps) (nd_ny eps) (cvec (nd_buf eps)) (0, 0) (if String.eqb p "Ez" then PolEz else PolHz) L0 true) /\
  dL (nd_nx eps) (nd_ny eps) (0, INR (nd_nx eps) * dl)%R (0, INR (nd_ny eps) * dl)%R = (dl, dl).
Proof.
  intros HS Hd H2 H3. destruct (Simulation_matrix _ _ _ _ _ _ _ HS) as (px & py & E & HM & Hw & HL & EA). injection E as <- <-.
  assert (F := Simulation_fields _ _ _ _ _ _ _ HS). destruct F as (E1 & E2 & E3 & E4 & E5 & _).
  repeat split; try assumption; try (apply dL_new; lia); try congruence.
Qed.

(** ** Theorems *)
(** The wave operator for Ez, any permittivity: off by the square of the pixel. *)
Theorem C110_wave_operator :
  forall omega eps dl L0 s u K, Simulation omega eps dl (Some [0; 0]%Z) "Ez" L0 = Ok s -> (0 < dl)%R ->
  2 <= nd_nx eps -> 2 <= nd_ny eps -> periodic (INR (nd_nx eps) * dl) (INR (nd_ny eps) * dl) u -> smooth_field 4 K u ->
  forall i j, i < nd_nx eps -> j < nd_ny eps -> let k := pix (nd_ny eps) i j in let x := (INR i * dl)%R in let y := (INR j * dl)%R in
  (Cmod (mv (s_M s) (s_A s) (at_pixels dl (nd_ny eps) u) k -
         (RtoC (1 / (MU_0 * L0)) * (d_dx 2 u x y + d_dy 2 u x y) + RtoC (omega ^ 2 * (EPSILON_0 * L0) * nd_buf eps k) * u x y))%C
   <= sqrt 2 * (K * dl ^ 2 / 6) / (MU_0 * L0))%R.
Proof.
  intros omega eps dl L0 s u K HS Hd H2 H3 HP HK i j Hi Hj k x y. unfold k.
  destruct (no_pml_facts _ _ _ _ _ _ HS Hd H2 H3) as (HL & EM & _ & _ & EA & HD). rewrite EM, EA. cbn [String.eqb Ascii.eqb Bool.eqb].
  assert (HMU := MU_0_pos). assert (PM : (0 < MU_0 * L0)%R) by (apply Rmult_lt_0_compat; assumption).
  rewrite (mv_construct_Ez_stencil omega L0 _ _ _ _ (cvec (nd_buf eps)) true dl) by (assumption || lra).
  assert (B := laplace_error _ _ dl u Hd HP K i j HK Hi Hj). rewrite at_pix by exact Hj. fold x y in B |- *. unfold cvec.
  replace (RtoC (omega ^ 2 * (EPSILON_0 * L0) * nd_buf eps (pix (nd_ny eps) i j))) with (RtoC (omega ^ 2 * (EPSILON_0 * L0)) * RtoC (nd_buf eps (pix (nd_ny eps) i j)))%C by (rewrite <- RtoC_mult; reflexivity).
  match goal with |- (Cmod ?z <= _)%R => replace z with (RtoC (1 / (MU_0 * L0)) * (laplacian dl (nd_nx eps) (nd_ny eps) (at_pixels dl (nd_ny eps) u) i j - (d_dx 2 u x y + d_dy 2 u x y)))%C by ring end.
  rewrite Cmod_mult, Cmod_R, Rabs_right by (apply Rle_ge, Rlt_le, Rdiv_lt_0_compat; lra). unfold Rdiv at 1. rewrite Rmult_1_l. unfold Rdiv at 2. rewrite Rmult_comm.
  apply Rmult_le_compat_r; [apply Rlt_le, Rinv_0_lt_compat; exact PM|exact B].
Qed.

(** The derivatives: the value at a pixel is the derivative half a pixel before it (backward) or
    after it (forward), off by the square of the pixel; as the derivative at the centre of the pixel it
    is off by half of a pixel times the second derivative. *)
Theorem C110_derivatives :
  forall omega eps dl p L0 s u K, Simulation omega eps dl (Some [0; 0]%Z) p L0 = Ok s -> (0 < dl)%R ->
  2 <= nd_nx eps -> 2 <= nd_ny eps -> periodic (INR (nd_nx eps) * dl) (INR (nd_ny eps) * dl) u -> smooth_field 3 K u ->
  forall i j, i < nd_nx eps -> j < nd_ny eps -> let k := pix (nd_ny eps) i j in let x := (INR i * dl)%R in let y := (INR j * dl)%R in
  let D := s_derivs s in let U := at_pixels dl (nd_ny eps) u in let half := (dl / 2)%R in
  (Cmod (mv (s_M s) (Dxb D) U k - d_dx 1 u (x - half)%R y)%C <= sqrt 2 * (K * dl ^ 2 / 24))%R /\
  (Cmod (mv (s_M s) (Dyb D) U k - d_dy 1 u x (y - half)%R)%C <= sqrt 2 * (K * dl ^ 2 / 24))%R /\
  (Cmod (mv (s_M s) (Dxf D) U k - d_dx 1 u (x + half)%R y)%C <= sqrt 2 * (K * dl ^ 2 / 24))%R /\
  (Cmod (mv (s_M s) (Dyf D) U k - d_dy 1 u x (y + half)%R)%C <= sqrt 2 * (K * dl ^ 2 / 24))%R /\
  (Cmod (mv (s_M s) (Dxb D) U k - (d_dx 1 u x y - RtoC half * d_dx 2 u x y))%C <= sqrt 2 * (K * dl ^ 2 / 6))%R /\
  (Cmod (mv (s_M s) (Dyb D) U k - (d_dy 1 u x y - RtoC half * d_dy 2 u x y))%C <= sqrt 2 * (K * dl ^ 2 / 6))%R.
Proof.
  intros omega eps dl p L0 s u K HS Hd H2 H3 HP HK i j Hi Hj k x y D U half.
  destruct (no_pml_facts _ _ _ _ _ _ HS Hd H2 H3) as (_ & EM & _). rewrite EM.
  destruct (C01_derivatives_are_periodic_differences omega eps dl p L0 s Hd H2 H3 HS U i j Hi Hj) as (E1 & E2 & E3 & E4).
  fold D k in E1, E2, E3, E4. rewrite E1, E2, E3, E4. unfold diff_xf, diff_xb, diff_yf, diff_yb, U.
  rewrite (at_next_x _ _ _ _ HP), (at_prev_x _ _ _ _ HP), (at_next_y _ _ _ _ HP), (at_prev_y _ _ _ _ HP), at_pix by assumption. fold x y.
  assert (Q1 : (K * dl ^ 2 / 24 = K * dl ^ 3 / 24 / dl)%R) by (field; lra). assert (Q2 : (K * dl ^ 2 / 6 = K * dl ^ 3 / 6 / dl)%R) by (field; lra). rewrite Q1, Q2.
  assert (SX : forall t v, smooth 3 K (fun t => Re (u t v)) /\ smooth 3 K (fun t => Im (u t v))) by (intros t v; split; apply (HK t v)).
  assert (SY : forall t v, smooth 3 K (fun t => Re (u v t)) /\ smooth 3 K (fun t => Im (u v t))) by (intros t v; split; apply (HK v t)).
  assert (F1 : forall f c t, smooth 3 K f -> (Rabs (f t - f (t - dl)%R - dl * Derive_n f 1 (t - half)%R) <= c)%R <-> (Rabs (f (t - half + dl / 2)%R - f (t - half - dl / 2)%R - dl * Derive f (t - half)%R) <= c)%R).
  { intros f c t _. replace (t - half + dl / 2)%R with t by (unfold half; field). replace (t - half - dl / 2)%R with (t - dl)%R by (unfold half; field). reflexivity. }
  assert (F2 : forall f c t, smooth 3 K f -> (Rabs (f (t + dl)%R - f t - dl * Derive_n f 1 (t + half)%R) <= c)%R <-> (Rabs (f (t + half + dl / 2)%R - f (t + half - dl / 2)%R - dl * Derive f (t + half)%R) <= c)%R).
  { intros f c t _. replace (t + half + dl / 2)%R with (t + dl)%R by (unfold half; field). replace (t + half - dl / 2)%R with t by (unfold half; field). reflexivity. }
  assert (F3 : forall f c t, (Rabs (f t - f (t - dl)%R - dl * (Derive_n f 1 t - (half * Derive_n f 2 t))) <= c)%R <-> (Rabs (f t - f (t - dl)%R - dl * Derive f t + dl ^ 2 / 2 * Derive_n f 2 t) <= c)%R).
  { intros f c t. change (Derive_n f 1 t) with (Derive f t).
    replace (f t - f (t - dl)%R - dl * (Derive f t - half * Derive_n f 2 t))%R with (f t - f (t - dl)%R - dl * Derive f t + dl ^ 2 / 2 * Derive_n f 2 t)%R by (unfold half; field). reflexivity. }
  assert (RH : forall a b c d e f : R, Re ((a, b) - RtoC c * (d, e))%C = (a - c * d)%R /\ Im ((a, b) - RtoC c * (d, e))%C = (b - c * e)%R).
  { intros. unfold Re, Im, RtoC, Cmult, Cminus, Cplus, Copp. cbn [fst snd]. split; ring. }
  unfold d_dx, d_dy. repeat split; apply (diff_error dl Hd).
  - exact (proj2 (F1 (fun t => Re (u t y)) _ x (proj1 (SX x y))) (first_diff K _ _ dl (proj1 (SX x y)) Hd)).
  - exact (proj2 (F1 (fun t => Im (u t y)) _ x (proj2 (SX x y))) (first_diff K _ _ dl (proj2 (SX x y)) Hd)).
  - exact (proj2 (F1 (fun t => Re (u x t)) _ y (proj1 (SY y x))) (first_diff K _ _ dl (proj1 (SY y x)) Hd)).
  - exact (proj2 (F1 (fun t => Im (u x t)) _ y (proj2 (SY y x))) (first_diff K _ _ dl (proj2 (SY y x)) Hd)).
  - exact (proj2 (F2 (fun t => Re (u t y)) _ x (proj1 (SX x y))) (first_diff K _ _ dl (proj1 (SX x y)) Hd)).
  - exact (proj2 (F2 (fun t => Im (u t y)) _ x (proj2 (SX x y))) (first_diff K _ _ dl (proj2 (SX x y)) Hd)).
  - exact (proj2 (F2 (fun t => Re (u x t)) _ y (proj1 (SY y x))) (first_diff K _ _ dl (proj1 (SY y x)) Hd)).
  - exact (proj2 (F2 (fun t => Im (u x t)) _ y (proj2 (SY y x))) (first_diff K _ _ dl (proj2 (SY y x)) Hd)).
  - rewrite (proj1 (RH _ _ _ _ _ 0%R)). exact (proj2 (F3 (fun t => Re (u t y)) _ x) (pixel_diff K _ _ dl (proj1 (SX x y)) Hd)).
  - rewrite (proj2 (RH _ _ _ _ _ 0%R)). exact (proj2 (F3 (fun t => Im (u t y)) _ x) (pixel_diff K _ _ dl (proj2 (SX x y)) Hd)).
  - rewrite (proj1 (RH _ _ _ _ _ 0%R)). exact (proj2 (F3 (fun t => Re (u x t)) _ y) (pixel_diff K _ _ dl (proj1 (SY y x)) Hd)).
  - rewrite (proj2 (RH _ _ _ _ _ 0%R)). exact (proj2 (F3 (fun t => Im (u x t)) _ y) (pixel_diff K _ _ dl (proj2 (SY y x)) Hd)).
Qed.
(** the frequency is at least delta away, in squares of wave numbers, from every wave of the grid *)
Definition off_resonance (omega L0 e0 dl : R) (Nx Ny : nat) (delta : R) : Prop :=
  (0 < delta)%R /\ forall a b, a < Nx -> b < Ny -> (delta <= Rabs (medium omega L0 e0 - lattice (phase Nx a) (phase Ny b) dl))%R.
(** u is the field of the current j in the uniform medium: Helmholtz's equation on the plane *)
Definition field_of_current (omega L0 e0 : R) (p : pol) (j u : R -> R -> C) : Prop :=
  forall x y, (d_dx 2 u x y + d_dy 2 u x y + RtoC (medium omega L0 e0) * u x y)%C = (Ci * RtoC (omega * inertia p L0 e0) * j x y)%C.

Lemma off_one_field omega eps dl p L0 e0 s delta : uniform_sim omega eps dl p L0 e0 s -> off_resonance omega L0 e0 dl (nd_nx eps) (nd_ny eps) delta -> nonsingular (s_M s) (s_A s).
Proof.
  intros HU (Hd & HG). destruct (w_facts _ _ _ _ _ _ _ HU) as (_ & _ & EM & _). rewrite EM. apply injective_nonsingular. intros x Hx.
  apply nrm_eq0. assert (C := b_coercive _ _ _ _ _ _ _ delta HU Hd HG x).
  assert (Z : nrm (nd_nx eps * nd_ny eps) (mv (nd_nx eps * nd_ny eps) (s_A s) x) = 0%R) by (apply nrm_zero; exact Hx).
  rewrite Z in C. assert (N := nrm_ge0 (nd_nx eps * nd_ny eps) x). nra.
Qed.
Lemma m_pos omega eps dl p L0 e0 s : uniform_sim omega eps dl p L0 e0 s -> 0 < nd_nx eps * nd_ny eps.
Proof. intros (_ & _ & H2 & H3 & _). apply Nat.mul_pos_pos; lia. Qed.

(** How much a current can excite: off resonance the field is at most omega m / delta times it, also for
    the difference of two currents. *)
Theorem C110_field_bound :
  forall e omega eps dl p L0 e0 s delta J J' av s1 s2 f1 f2 F f1' f2' F',
  solver_exact e -> uniform_sim omega eps dl p L0 e0 s -> off_resonance omega L0 e0 dl (nd_nx eps) (nd_ny eps) delta ->
  let m := inertia (if String.eqb p "Ez" then PolEz else PolHz) L0 e0 in let n := nd_size eps in
  solve_fields e false av (upd_src J s) = (s1, Ok (f1, f2, F)) ->
  solve_fields e false av (upd_src J' s) = (s2, Ok (f1', f2', F')) ->
  one_field s /\
  (rms n F <= omega * m / delta * rms n (nd_buf J))%R /\
  (rms n (fun k => F k - F' k)%C <= omega * m / delta * rms n (fun k => nd_buf J k - nd_buf J' k)%C)%R.
Proof.
  intros e omega eps dl p L0 e0 s delta J J' av s1 s2 f1 f2 F f1' f2' F' HE HU HO m n H1 H2.
  assert (HN := off_one_field _ _ _ _ _ _ _ _ HU HO). assert (HM := m_pos _ _ _ _ _ _ _ HU). assert (Hm := w_inertia _ _ _ _ _ _ _ HU). fold m in Hm.
  destruct (w_facts _ _ _ _ _ _ _ HU) as (Hw & HL & EM & _ & _ & Eo & _). destruct HO as (Hd & HG).
  change n with (nd_nx eps * nd_ny eps) in *. set (M := nd_nx eps * nd_ny eps) in *.
  assert (B : forall (v c : vec), (forall k, k < M -> mv M (s_A s) v k = (Ci * RtoC omega * c k)%C) -> (rms M v <= omega * m / delta * rms M c)%R).
  { intros v c Hv. assert (C := b_coercive _ _ _ _ _ _ _ delta HU Hd HG v). fold M m in C.
    rewrite !rms_nrm by exact HM. assert (P : (0 < sqrt (INR M))%R) by (apply sqrt_lt_R0, lt_0_INR; exact HM).
    assert (E : nrm M (mv M (s_A s) v) = (omega * nrm M c)%R).
    { rewrite (nrm_ext M _ (fun k => (Ci * RtoC omega * c k)%C)) by exact Hv. assert (S := rms_scal M (Ci * RtoC omega)%C c HM). rewrite !rms_nrm in S by exact HM.
      replace (Cmod (Ci * RtoC omega)%C) with omega in S.
      - apply Rmult_eq_reg_r with (/ sqrt (INR M))%R; [|apply Rinv_neq_0_compat; lra]. unfold Rdiv in S. rewrite S. ring.
      - rewrite Cmod_mult, Cmod_R, Rabs_right by lra. assert (X : Cmod Ci = 1%R) by (unfold Cmod, Ci; cbn [fst snd]; replace (0 ^ 2 + 1 ^ 2)%R with 1%R by ring; apply sqrt_1). rewrite X. ring. }
    rewrite E in C. unfold Rdiv. rewrite <- Rmult_assoc. apply Rmult_le_compat_r; [apply Rlt_le, Rinv_0_lt_compat; exact P|].
    apply Rmult_le_reg_l with delta; [exact Hd|]. replace (delta * (omega * m * / delta * nrm M c))%R with (m * (omega * nrm M c))%R by (field; lra). exact C. }
  assert (S1 : solves (s_M s) (s_A s) F (rhs (upd_src J s))) by exact (solve_fields_solves e false av (upd_src J s) s1 f1 f2 F HE HN H1).
  assert (S2 : solves (s_M s) (s_A s) F' (rhs (upd_src J' s))) by exact (solve_fields_solves e false av (upd_src J' s) s2 f1' f2' F' HE HN H2).
  rewrite EM in S1, S2.
  assert (T1 : forall k, k < M -> mv M (s_A s) F k = rhs (upd_src J s) k) by exact S1. assert (T2 : forall k, k < M -> mv M (s_A s) F' k = rhs (upd_src J' s) k) by exact S2.
  split; [apply one_field_iff; exact HN|]. split; apply B; intros k Hk.
  - rewrite (T1 k Hk). unfold rhs, upd_src. cbn [s_src s_omega]. rewrite Eo. ring.
  - change (fun k => (F k - F' k)%C) with (vminus F F'). rewrite mv_vminus, (T1 k Hk), (T2 k Hk). unfold rhs, upd_src. cbn [s_src s_omega]. rewrite Eo. ring.
Qed.

(** The computed fields are the fields of the continuous problem, up to the square of the pixel: the
    z component at the pixels, the two others half a pixel before them. *)
Theorem C110_convergence :
  forall e omega eps dl p L0 e0 s delta K3 K4 j u J av s1 f1 f2 F,
  solver_exact e -> uniform_sim omega eps dl p L0 e0 s -> off_resonance omega L0 e0 dl (nd_nx eps) (nd_ny eps) delta ->
  let P := if String.eqb p "Ez" then PolEz else PolHz in let m := inertia P L0 e0 in let n := nd_size eps in
  let sign := (if String.eqb p "Ez" then 1 else -1)%R in let half := (dl / 2)%R in
  periodic (INR (nd_nx eps) * dl) (INR (nd_ny eps) * dl) u -> smooth_field 4 K4 u -> smooth_field 3 K3 u ->
  field_of_current omega L0 e0 P j u ->
  nd_size J = n -> (forall k, k < n -> nd_buf J k = at_pixels dl (nd_ny eps) j k) ->
  solve_fields e false av (upd_src J s) = (s1, Ok (f1, f2, F)) ->
  let h1 := fun x y => (- RtoC sign / (Ci * RtoC (omega * m)) * d_dy 1 u x (y - half)%R)%C in
  let h2 := fun x y => (RtoC sign / (Ci * RtoC (omega * m)) * d_dx 1 u (x - half)%R y)%C in
  let err := (sqrt 2 * dl ^ 2 / (omega * m) * (sqrt (medium omega L0 e0 / delta ^ 2 + 1 / delta) * K4 / 6 + K3 / 24))%R in
  (rms n (fun k => F k - at_pixels dl (nd_ny eps) u k)%C <= sqrt 2 * dl ^ 2 / delta * (K4 / 6))%R /\
  (rms n (fun k => f1 k - at_pixels dl (nd_ny eps) h1 k)%C <= err)%R /\
  (rms n (fun k => f2 k - at_pixels dl (nd_ny eps) h2 k)%C <= err)%R.
Proof.
  intros e omega eps dl p L0 e0 s delta K3 K4 j u J av s1 f1 f2 F HE HU HO P m n sign half HP H4 H3 HF HJ HJv HS h1 h2 err.
  assert (HN := off_one_field _ _ _ _ _ _ _ _ HU HO). assert (HM := m_pos _ _ _ _ _ _ _ HU). assert (Hm := w_inertia _ _ _ _ _ _ _ HU). fold P m in Hm.
  destruct (w_facts _ _ _ _ _ _ _ HU) as (Hw & HL & EM & ENx & ENy & Eo & EL & Ee & Edl & EP & _). destruct HO as (Hd & HG). fold P in EP.
  assert (HU' := HU). destruct HU' as (HSim & Hdl & HNx & HNy & H0 & Hu).
  change n with (nd_nx eps * nd_ny eps) in *. set (Nx := nd_nx eps) in *. set (Ny := nd_ny eps) in *. set (M := Nx * Ny) in *. set (U := at_pixels dl Ny u) in *.
  assert (S1 : solves (s_M s) (s_A s) F (rhs (upd_src J s))) by exact (solve_fields_solves e false av (upd_src J s) s1 f1 f2 F HE HN HS).
  rewrite EM in S1. assert (T1 : forall k, k < M -> mv M (s_A s) F k = rhs (upd_src J s) k) by exact S1.
  assert (P2 : (0 < sqrt 2)%R) by (apply sqrt_lt_R0; lra). assert (Psq : (0 < dl ^ 2)%R) by (apply pow_lt; exact Hdl).
  assert (K4p : (0 <= K4)%R) by (destruct (H4 0%R 0%R) as (Q & _); exact (smooth_pos _ _ _ Q)).
  assert (K3p : (0 <= K3)%R) by (destruct (H3 0%R 0%R) as (Q & _); exact (smooth_pos _ _ _ Q)).
  set (B := (sqrt 2 * (K4 * dl ^ 2 / 6))%R). assert (B0 : (0 <= B)%R) by (unfold B; apply Rmult_le_pos; [lra|]; apply Rmult_le_pos; [apply Rmult_le_pos; lra|lra]).
  set (v := (fun k => F k - U k)%C).
  assert (R : forall k, k < M -> (Cmod (mv M (s_A s) v k) <= B / m)%R).
  { intros k Hk. change v with (vminus F U). rewrite mv_vminus, (T1 k Hk). destruct (pix_bound _ _ _ Hk) as (i & jj & Hi & Hj & ->).
    rewrite (u_A _ _ _ _ _ _ _ HU) by assumption. fold P m Nx Ny.
    unfold rhs, upd_src. cbn [s_src s_omega]. rewrite HJv by exact Hk. rewrite Eo. unfold U. rewrite !at_pix by exact Hj. fold U.
    assert (LE := laplace_error Nx Ny dl u Hdl HP K4 i jj H4 Hi Hj). fold U B in LE. set (x := (INR i * dl)%R) in *. set (y := (INR jj * dl)%R) in *.
    assert (HF' := HF x y). fold m in HF'.
    assert (EJ : (j x y * Ci * RtoC omega = RtoC (1 / m) * (d_dx 2 u x y + d_dy 2 u x y + RtoC (medium omega L0 e0) * u x y))%C).
    { rewrite HF'. unfold Rdiv. rewrite Rmult_1_l, RtoC_inv, RtoC_mult by lra. field. apply RtoC_neq0. lra. }
    replace (j x y * (Ci * RtoC omega))%C with (j x y * Ci * RtoC omega)%C by ring. rewrite EJ.
    match goal with |- (Cmod ?z <= _)%R => replace z with (- (RtoC (1 / m) * (laplacian dl Nx Ny U i jj - (d_dx 2 u x y + d_dy 2 u x y))))%C by ring end.
    rewrite Cmod_opp, Cmod_mult, Cmod_R, Rabs_right by (apply Rle_ge, Rlt_le, Rdiv_lt_0_compat; lra). unfold Rdiv. rewrite Rmult_1_l, Rmult_comm.
    apply Rmult_le_compat_r; [apply Rlt_le, Rinv_0_lt_compat; exact Hm|exact LE]. }
  assert (PS : (0 < sqrt (INR M))%R) by (apply sqrt_lt_R0, lt_0_INR; exact HM).
  assert (RN : (m * nrm M (mv M (s_A s) v) <= sqrt (INR M) * B)%R).
  { apply Rle_trans with (m * (sqrt (INR M) * (B / m)))%R; [|right; field; lra]. apply Rmult_le_compat_l; [lra|]. apply nrm_bound; [|exact R].
    apply Rmult_le_pos; [exact B0|apply Rlt_le, Rinv_0_lt_compat; exact Hm]. }
  assert (CO := b_coercive _ _ _ _ _ _ _ delta HU Hd HG v). fold P m Nx Ny M in CO.
  split.
  - change (rms M v <= sqrt 2 * dl ^ 2 / delta * (K4 / 6))%R. rewrite rms_nrm by exact HM.
    apply Rmult_le_reg_l with (delta * sqrt (INR M))%R; [apply Rmult_lt_0_compat; assumption|].
    replace (delta * sqrt (INR M) * (nrm M v / sqrt (INR M)))%R with (delta * nrm M v)%R by (field; lra).
    replace (delta * sqrt (INR M) * (sqrt 2 * dl ^ 2 / delta * (K4 / 6)))%R with (sqrt (INR M) * B)%R by (unfold B; field; lra). lra.
  - destruct (u_gradient _ _ _ _ _ _ _ HU v delta Hd CO) as (GX & GY). fold P m Nx Ny M in GX, GY.
    set (q := sqrt (medium omega L0 e0 / delta ^ 2 + 1 / delta)) in *. assert (Q0 : (0 <= q)%R) by apply sqrt_pos.
    assert (G : forall Dm : mat, (nrm M (mv M Dm v) <= q * (m * nrm M (mv M (s_A s) v)))%R -> (rms M (mv M Dm v) <= q * B)%R).
    { intros Dm HD. rewrite rms_nrm by exact HM. apply Rmult_le_reg_l with (sqrt (INR M)); [exact PS|].
      replace (sqrt (INR M) * (nrm M (mv M Dm v) / sqrt (INR M)))%R with (nrm M (mv M Dm v)) by (field; lra).
      replace (sqrt (INR M) * (q * B))%R with (q * (sqrt (INR M) * B))%R by ring.
      eapply Rle_trans; [exact HD|]. apply Rmult_le_compat_l; assumption. }
    set (B3 := (sqrt 2 * (K3 * dl ^ 2 / 24))%R). assert (B30 : (0 <= B3)%R) by (unfold B3; apply Rmult_le_pos; [lra|]; apply Rmult_le_pos; [apply Rmult_le_pos; lra|lra]).
    assert (DD := C110_derivatives omega eps dl p L0 s u K3 HSim Hdl HNx HNy HP H3). cbv zeta in DD. fold Nx Ny U half B3 in DD. rewrite EM in DD.
    set (gx := fun k => d_dx 1 u (INR (k / Ny) * dl - half)%R (INR (k mod Ny) * dl)%R). set (gy := fun k => d_dy 1 u (INR (k / Ny) * dl)%R (INR (k mod Ny) * dl - half)%R).
    assert (T : forall (Dm : mat) (g : vec), (nrm M (mv M Dm v) <= q * (m * nrm M (mv M (s_A s) v)))%R -> (forall k, k < M -> (Cmod (mv M Dm U k - g k)%C <= B3)%R) ->
       (rms M (fun k => mv M Dm F k - g k)%C <= q * B + B3)%R).
    { intros Dm g HD HG'. rewrite (rms_ext M _ (fun k => mv M Dm v k + (mv M Dm U k - g k))%C).
      - eapply Rle_trans; [apply (rms_plus M (mv M Dm v) (fun k => (mv M Dm U k - g k)%C) HM)|]. apply Rplus_le_compat; [apply G; exact HD|]. apply rms_bound; assumption.
      - intros k Hk. change v with (vminus F U). rewrite mv_vminus. ring. }
    assert (TX : (rms M (fun k => mv M (Dxb (s_derivs s)) F k - gx k)%C <= q * B + B3)%R).
    { apply T; [exact GX|]. intros k Hk. destruct (pix_bound _ _ _ Hk) as (i & jj & Hi & Hj & ->). unfold gx, pix. rewrite flat_div, flat_mod by exact Hj. fold (pix Ny i jj). apply (DD i jj Hi Hj). }
    assert (TY : (rms M (fun k => mv M (Dyb (s_derivs s)) F k - gy k)%C <= q * B + B3)%R).
    { apply T; [exact GY|]. intros k Hk. destruct (pix_bound _ _ _ Hk) as (i & jj & Hi & Hj & ->). unfold gy, pix. rewrite flat_div, flat_mod by exact Hj. fold (pix Ny i jj). apply (DD i jj Hi Hj). }
    assert (HCi := Ci_neq0). assert (HoC : RtoC omega <> RtoC 0) by (apply RtoC_neq0; lra). assert (HmC : RtoC m <> RtoC 0) by (apply RtoC_neq0; lra).
    assert (EQ : forall k, k < M -> f1 k = (- RtoC sign / (Ci * RtoC (omega * m)) * mv M (Dyb (s_derivs s)) F k)%C /\ f2 k = (RtoC sign / (Ci * RtoC (omega * m)) * mv M (Dxb (s_derivs s)) F k)%C).
    { intros k Hk. destruct (solve_fields_ok _ _ _ _ _ _ _ _ HS) as (_ & _ & HDf & _). change (used_eps false (upd_src J s)) with (s_epsC s) in HDf.
      assert (EPd : forall ax, eps_dir ax av L0 Nx Ny (s_epsC s) k = RtoC (EPSILON_0 * L0 * e0)).
      { intro ax. destruct (pix_bound _ _ _ Hk) as (i & jj & Hi & Hj & ->). unfold s_epsC. rewrite Ee.
        assert (PNx : 0 < Nx) by lia. assert (PNy : 0 < Ny) by lia. apply (eps_dir_uniform L0 Nx Ny av (nd_buf eps)); assumption. }
      unfold derived_fields, upd_src, s_M in HDf. cbn [s_pol s_Nx s_Ny s_omega s_L0 s_derivs] in HDf.
      rewrite EP, ENx, ENy, Eo, EL in HDf. fold Nx Ny M in HDf. unfold m, inertia in *. unfold P, sign in *. rewrite RtoC_mult.
      destruct (String.eqb p "Ez"); injection HDf as -> ->; unfold vscal.
      - split; field; repeat split; assumption.
      - rewrite !mv_mm. unfold spdiags. rewrite !mv_diag by exact Hk. rewrite !EPd. replace (RtoC (-1)) with (- RtoC 1)%C by (rewrite <- RtoC_opp; reflexivity).
        split; field; repeat split; assumption. }
    set (c := (RtoC sign / (Ci * RtoC (omega * m)))%C) in *.
    assert (CM : Cmod c = (1 / (omega * m))%R).
    { unfold c. assert (Pom : (0 < omega * m)%R) by (apply Rmult_lt_0_compat; assumption).
      rewrite Cmod_div by (apply Cmult_neq_0; [exact HCi|apply RtoC_neq0; lra]). rewrite Cmod_mult, !Cmod_R, (Rabs_right (omega * m)) by lra.
      assert (X : Cmod Ci = 1%R) by (unfold Cmod, Ci; cbn [fst snd]; replace (0 ^ 2 + 1 ^ 2)%R with 1%R by ring; apply sqrt_1). rewrite X.
      replace (Rabs sign) with 1%R by (unfold sign; destruct (String.eqb p "Ez"); [rewrite Rabs_R1; reflexivity|rewrite Rabs_left by lra; ring]). field. split; lra. }
    assert (ER : (1 / (omega * m) * (q * B + B3) = err)%R) by (unfold err, B, B3; field; split; lra).
    assert (Pc : (0 <= 1 / (omega * m))%R) by (apply Rlt_le, Rdiv_lt_0_compat; [lra|apply Rmult_lt_0_compat; assumption]).
    split; rewrite <- ER.
    + rewrite (rms_ext M _ (fun k => (- c) * (mv M (Dyb (s_derivs s)) F k - gy k))%C).
      * rewrite (rms_scal M (- c)%C (fun k => (mv M (Dyb (s_derivs s)) F k - gy k)%C) HM), Cmod_opp, CM. apply Rmult_le_compat_l; assumption.
      * intros k Hk. rewrite (proj1 (EQ k Hk)). unfold at_pixels, h1, gy, c. field. split; [apply RtoC_neq0; apply Rgt_not_eq, Rmult_lt_0_compat; assumption|exact HCi].
    + rewrite (rms_ext M _ (fun k => c * (mv M (Dxb (s_derivs s)) F k - gx k))%C).
      * rewrite (rms_scal M c (fun k => (mv M (Dxb (s_derivs s)) F k - gx k)%C) HM), CM. apply Rmult_le_compat_l; assumption.
      * intros k Hk. rewrite (proj2 (EQ k Hk)). unfold at_pixels, h2, gx, c. ring.
Qed.

(** ** A case that meets the hypotheses *)
Definition fam (w c s t : R) : R := (c * cos (w * t) + s * sin (w * t))%R.
Lemma fam_derive w c s t : is_derive (fam w c s) t (fam w (w * s) (- w * c) t).
Proof. unfold fam. auto_derive; [exact I|]. ring. Qed.
Lemma fam_n w n c s : exists c' s', (forall t, Derive_n (fam w c s) n t = fam w c' s' t) /\ (c' ^ 2 + s' ^ 2 = (w ^ n) ^ 2 * (c ^ 2 + s ^ 2))%R.
Proof.
  induction n as [|n (c' & s' & E & Q)].
  - exists c, s. split; [reflexivity|]. cbn [pow]. ring.
  - exists (w * s')%R, (- w * c')%R. split.
    + intro t. change (Derive_n (fam w c s) (S n) t) with (Derive (Derive_n (fam w c s) n) t). rewrite (Derive_ext _ (fam w c' s')) by exact E. apply is_derive_unique, fam_derive.
    + change (w ^ S n)%R with (w * w ^ n)%R. transitivity (w ^ 2 * (c' ^ 2 + s' ^ 2))%R; [ring|]. rewrite Q. ring.
Qed.
Lemma fam_smooth n w c s : (0 <= w <= 1)%R -> (c ^ 2 + s ^ 2 <= 1)%R -> smooth n 1 (fam w c s).
Proof.
  intros Hw Hc t. split.
  - intros [|k] _; [exact I|]. destruct (fam_n w k c s) as (c' & s' & E & _). cbn [ex_derive_n].
    apply ex_derive_ext with (f := fam w c' s'); [intro; symmetry; apply E|]. eexists. apply fam_derive.
  - destruct (fam_n w n c s) as (c' & s' & E & Q). rewrite E. unfold fam. assert (T := sin2_cos2 (w * t)). unfold Rsqr in T.
    assert (W : (0 <= (w ^ n) ^ 2 <= 1)%R).
    { split; [apply pow2_ge_0|]. assert (A : (0 <= w ^ n)%R) by (apply pow_le; lra). assert (B : (w ^ n <= 1)%R) by (rewrite <- (pow1 n); apply pow_incr; lra). nra. }
    assert (Z : (c' ^ 2 + s' ^ 2 <= 1)%R) by (rewrite Q; assert (0 <= c ^ 2 + s ^ 2)%R by nra; nra).
    set (co := cos (w * t)) in *. set (si := sin (w * t)) in *.
    assert (S : ((c' * co + s' * si) ^ 2 <= 1)%R).
    { assert (V := pow2_ge_0 (c' * si - s' * co)). replace ((c' * co + s' * si) ^ 2)%R with ((c' ^ 2 + s' ^ 2) * (si * si + co * co) - (c' * si - s' * co) ^ 2)%R by ring. rewrite T. lra. }
    apply Rabs_le. split; nra.
Qed.
(** A wave of one period over a grid of 8 by 3 pixels, as a function of the plane. *)
Definition ex_u (x y : R) : C := (cos (PI / 4 * x), 0)%R.
Lemma ex_u_smooth n : smooth_field n 1 ex_u.
Proof.
  assert (HP := PI_RGT_0). assert (HP4 := PI_4).
  assert (E1 : forall y, (fun t => Re (ex_u t y)) = fam (PI / 4) 1 0) by (intro; apply FunctionalExtensionality.functional_extensionality; intro t; unfold ex_u, fam; cbn [Re fst]; ring).
  assert (E2 : forall y, (fun t => Im (ex_u t y)) = fam 0 0 0) by (intro; apply FunctionalExtensionality.functional_extensionality; intro t; unfold ex_u, fam; cbn [Im snd]; ring).
  assert (E3 : forall x, (fun t => Re (ex_u x t)) = fam 0 (cos (PI / 4 * x)) 0).
  { intro; apply FunctionalExtensionality.functional_extensionality; intro t; unfold ex_u, fam; cbn [Re fst]. rewrite Rmult_0_l, cos_0. ring. }
  assert (E4 : forall x, (fun t => Im (ex_u x t)) = fam 0 0 0) by (intro; apply FunctionalExtensionality.functional_extensionality; intro t; unfold ex_u, fam; cbn [Im snd]; ring).
  intros x y. rewrite E1, E2, E3, E4. assert (Q := COS_bound (PI / 4 * x)). assert (QQ : (cos (PI / 4 * x) ^ 2 <= 1)%R) by nra.
  repeat split; try (apply fam_smooth; lra).
Qed.
Lemma ex_u_periodic : periodic (INR 8 * 1) (INR 3 * 1) ex_u.
Proof.
  intros x y. split; [|reflexivity]. unfold ex_u. f_equal. replace (PI / 4 * (x + INR 8 * 1))%R with (PI / 4 * x + 2 * INR 1 * PI)%R by (cbn; field). apply cos_period.
Qed.
Lemma ex_off : off_resonance (3 * C_0) 1 1 1 8 3 1.
Proof.
  split; [lra|]. intros a b _ _. assert (Q := C_0_pos). assert (E : medium (3 * C_0) 1 1 = 9%R) by (unfold medium; field; lra). rewrite E.
  assert (B1 := SIN_bound (phase 8 a / 2)). assert (B2 := SIN_bound (phase 3 b / 2)). unfold lattice.
  set (u := sin (phase 8 a / 2)) in *. set (v := sin (phase 3 b / 2)) in *.
  assert (X1 : (u ^ 2 <= 1)%R) by nra. assert (X2 : (v ^ 2 <= 1)%R) by nra.
  replace ((4 * u ^ 2 + 4 * v ^ 2) / 1 ^ 2)%R with (4 * u ^ 2 + 4 * v ^ 2)%R by field. rewrite Rabs_right; lra.
Qed.
Example C110_met : exists s j s1 f1 f2 F,
  uniform_sim (3 * C_0) (mkNd 8 3 (fun _ => 1%R)) 1 "Ez" 1 1 s /\ solver_exact ex_env /\ off_resonance (3 * C_0) 1 1 1 8 3 1 /\
  periodic (INR 8 * 1) (INR 3 * 1) ex_u /\ smooth_field 4 1 ex_u /\ smooth_field 3 1 ex_u /\ field_of_current (3 * C_0) 1 1 PolEz j ex_u /\
  let J := mkNd 8 3 (at_pixels 1 3 j) in solve_fields ex_env false true (upd_src J s) = (s1, Ok (f1, f2, F)).
Proof.
  assert (HC := C_0_pos). destruct (uniform_ex (3 * C_0)) as [s HU]; [lra|].
  assert (HM := w_inertia _ _ _ _ _ _ _ HU). cbn [String.eqb Ascii.eqb Bool.eqb] in HM.
  set (j := fun x y => ((d_dx 2 ex_u x y + d_dy 2 ex_u x y + RtoC (medium (3 * C_0) 1 1) * ex_u x y) / (Ci * RtoC (3 * C_0 * inertia PolEz 1 1)))%C).
  set (J := mkNd 8 3 (at_pixels 1 3 j)). destruct (w_facts _ _ _ _ _ _ _ HU) as (_ & _ & EM & _).
  destruct (solve_fields_lin ex_env true (upd_src J s)) as [X [HX HE]].
  { cbn [s_src upd_src]. change (s_M (upd_src J s)) with (s_M s). rewrite EM. reflexivity. }
  cbv zeta in HE. destruct (derived_fields (upd_src J s) (s_epsC (upd_src J s)) true X) as [v w].
  exists s, j. do 4 eexists. split; [exact HU|]. split; [exact ex_env_exact|]. split; [exact ex_off|]. split; [exact ex_u_periodic|].
  split; [apply ex_u_smooth|]. split; [apply ex_u_smooth|]. split; [|cbv zeta; fold J; exact HE].
  intros x y. unfold j. field. split; [apply RtoC_neq0; apply Rgt_not_eq, Rmult_lt_0_compat; lra|exact Ci_neq0].
Qed.
