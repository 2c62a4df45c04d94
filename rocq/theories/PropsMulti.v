(** C124: the multi channel accelerator example. *)
From Coq Require Import Reals Lra Lia List ZArith Arith Bool String.
From Coquelicot Require Import Coquelicot.
From Verif Require Import Base Linear MCore MSim MFilter MOpt MMode MStruct MAccel MMulti Spec PCore PSim PSym PGrad PropsCore PropsSolve PropsLin PropsSym PropsSymOpt PropsOpt3 PSolv PEx PropsSolv PropsStruct PropsNotebook PropsAccel.
Import ListNotations.
Local Open Scope string_scope.

(* ------------------------------------------------------------------ *)
(** ** The bound *)
Lemma multi_eta_inv Nx Ny offs dl beta l0 eta : multi_eta Nx Ny offs dl beta l0 = Ok eta ->
  forall i j, (j < Ny)%nat -> eta (i * Ny + j)%nat = if marked (Nx / 2) offs i then (RtoC (1 / INR Ny) * electron_phase dl beta l0 j)%C else RtoC 0.
Proof.
  intros H i j Hj. unfold multi_eta in H. destruct (List.existsb _ _); [discriminate|].
  assert (I: forall a b : vec, Ok a = Ok b -> a = b) by (intros a b Q; injection Q; auto). apply I in H. subst eta. cbv beta. rewrite flat_div, flat_mod by exact Hj. reflexivity.
Qed.
Definition ind (b : bool) : R := if b then 1%R else 0%R.
Lemma ind_nonneg b : (0 <= ind b)%R. Proof. destruct b; cbn; lra. Qed.
Lemma count_one N z : (rsum N (fun i => ind (Z.eqb (Z.of_nat i) z)) <= 1)%R.
Proof.
  assert (H: (rsum N (fun i => ind (Z.eqb (Z.of_nat i) z)) <= ind (Z.ltb z (Z.of_nat N)))%R).
  { induction N as [|N IH]; [cbn [rsum]; apply ind_nonneg|]. cbn [rsum].
    destruct (Z.eqb_spec (Z.of_nat N) z); destruct (Z.ltb_spec z (Z.of_nat N)); destruct (Z.ltb_spec z (Z.of_nat (S N))); cbn [ind] in *; try lia; lra. }
  eapply Rle_trans; [exact H|]. destruct (Z.ltb _ _); cbn; lra.
Qed.
Lemma count_marked N nx offs : (rsum N (fun i => ind (marked nx offs i)) <= 2 * INR (List.length offs))%R.
Proof.
  induction offs as [|o t IH]; [cbn [List.length INR marked List.existsb ind]; rewrite rsum_0 by reflexivity; lra|].
  cbn [List.length]. rewrite S_INR.
  assert (H: (rsum N (fun i => ind (marked nx (o :: t) i)) <= rsum N (fun i => ind (Z.eqb (Z.of_nat i) (Z.of_nat nx - o))) + rsum N (fun i => ind (Z.eqb (Z.of_nat i) (Z.of_nat nx + o))) + rsum N (fun i => ind (marked nx t i)))%R).
  { rewrite <- !rsum_plus. apply rsum_le. intros i _. change (marked nx (o :: t) i) with ((Z.eqb (Z.of_nat i) (Z.of_nat nx - o) || Z.eqb (Z.of_nat i) (Z.of_nat nx + o)) || marked nx t i).
    destruct (Z.eqb _ _), (Z.eqb _ _), (marked nx t i); cbn; lra. }
  assert (A := count_one N (Z.of_nat nx - o)). assert (B := count_one N (Z.of_nat nx + o)). lra.
Qed.
Lemma py_int_0 x : (x = 0)%R -> py_int x = 0%Z.
Proof. intros ->. apply py_int_unique. unfold truncated. change (IZR 0) with 0%R. split; intros; lra. Qed.
Lemma count_channels N nx gap L n dl : (1 <= n)%Z -> (rsum N (fun i => ind (marked nx (channel_offsets gap L n dl) i)) <= IZR (2 * (n / 2) + 1))%R.
Proof.
  intro Hn. unfold channel_offsets. assert (Hh: (0 <= n / 2)%Z) by (apply Z.div_pos; lia). set (h := (n / 2)%Z) in *.
  replace (Z.to_nat (h + 1)) with (S (Z.to_nat h)) by lia. cbn [List.seq List.map].
  rewrite py_int_0 by (simpl INR; unfold Rdiv; ring). set (t := List.map _ _).
  assert (Lt: List.length t = Z.to_nat h) by (unfold t; rewrite map_length, seq_length; reflexivity).
  assert (H: (rsum N (fun i => ind (marked nx (0%Z :: t) i)) <= rsum N (fun i => ind (Z.eqb (Z.of_nat i) (Z.of_nat nx))) + rsum N (fun i => ind (marked nx t i)))%R).
  { rewrite <- !rsum_plus. apply rsum_le. intros i _. change (marked nx (0%Z :: t) i) with ((Z.eqb (Z.of_nat i) (Z.of_nat nx - 0) || Z.eqb (Z.of_nat i) (Z.of_nat nx + 0)) || marked nx t i). rewrite Z.sub_0_r, Z.add_0_r.
    destruct (Z.eqb _ _), (marked nx t i); cbn; lra. }
  assert (A := count_one N (Z.of_nat nx)). assert (B := count_marked N nx t). rewrite Lt, INR_IZR_INZ, Z2Nat.id in B by exact Hh. rewrite plus_IZR, mult_IZR. lra.
Qed.
Lemma rmax_bound M (f : nat -> R) k : (k < M)%nat -> (f k <= rmax M f)%R.
Proof. intro H. apply (rmax_spec M f); lia || exact H. Qed.
(** Whatever the fields, the objective is between -1 and 1 for an odd number of channels. *)
Theorem C124_gain_bound :
  forall Nx Ny gap L n dl beta lambda0 eta ex ey, (0 < Ny)%nat -> (1 <= n)%Z -> Z.odd n = true ->
  multi_eta Nx Ny (channel_offsets gap L n dl) dl beta lambda0 = Ok eta ->
  (exists k, (k < Nx * Ny)%nat /\ (ex k <> RtoC 0 \/ ey k <> RtoC 0)) ->
  (-1 <= multi_value (Nx * Ny) eta n ex ey <= 1)%R.
Proof.
  intros Nx Ny gap L n dl beta l0 eta ex ey Hy Hn Ho HE (k0 & Hk0 & Hnz).
  set (M := (Nx * Ny)%nat) in *. set (mx := rmax M (fun k => Cmod (ex k))). set (my := rmax M (fun k => Cmod (ey k))).
  assert (Bx: forall k, (k < M)%nat -> (Cmod (ex k) <= mx)%R) by (intros; apply (rmax_bound M (fun k => Cmod (ex k))); assumption).
  assert (By: forall k, (k < M)%nat -> (Cmod (ey k) <= my)%R) by (intros; apply (rmax_bound M (fun k => Cmod (ey k))); assumption).
  assert (P1 := Cmod_ge_0 (ex k0)). assert (P2 := Cmod_ge_0 (ey k0)). assert (Q1 := Bx k0 Hk0). assert (Q2 := By k0 Hk0).
  set (D := sqrt (mx ^ 2 + my ^ 2)).
  assert (HD: (0 < mx ^ 2 + my ^ 2)%R).
  { destruct Hnz as [Z|Z]; apply Cmod_gt_0 in Z; nra. }
  assert (DP: (0 < D)%R) by (apply sqrt_lt_R0; exact HD).
  assert (DB: (my <= D)%R). { apply Rsqr_incr_0_var; [|lra]. unfold D. rewrite Rsqr_sqrt by lra. unfold Rsqr. nra. }
  assert (HN: (0 < INR Ny)%R) by (apply lt_0_INR; lia). assert (Hn': (0 < IZR n)%R) by (apply IZR_lt; lia).
  assert (S1: (Rabs (rsum M (fun k => Re (ey k * eta k)%C)) <= D * IZR n)%R).
  { eapply Rle_trans; [apply rsum_abs|].
    apply Rle_trans with (D * rsum M (fun k => Cmod (eta k)))%R.
    - rewrite <- rsum_scal. apply rsum_le. intros k Hk. eapply Rle_trans; [apply Cmod_Re_le|]. rewrite Cmod_mult. apply Rmult_le_compat_r; [apply Cmod_ge_0|]. specialize (By k Hk). lra.
    - apply Rmult_le_compat_l; [lra|]. unfold M. rewrite rsum_flat.
      apply Rle_trans with (rsum Nx (fun i => ind (marked (Nx / 2) (channel_offsets gap L n dl) i))).
      + apply rsum_le. intros i Hi. rewrite (rsum_ext Ny _ (fun _ => ind (marked (Nx / 2) (channel_offsets gap L n dl) i) * / INR Ny))%R.
        * rewrite rsum_const. apply Req_le. field. lra.
        * intros j Hj. rewrite (multi_eta_inv _ _ _ _ _ _ _ HE i j Hj). destruct (marked _ _ i); cbn [ind]; [|rewrite Cmod_0; ring].
          rewrite Cmod_mult, phase_mod, Cmod_R, Rabs_pos_eq; [unfold Rdiv; ring|]. apply Rlt_le, Rdiv_lt_0_compat; lra.
      + eapply Rle_trans; [apply count_channels; exact Hn|]. apply IZR_le. apply Z.odd_spec in Ho as [m Hm]. replace (n / 2)%Z with m; [lia|]. subst n. replace (2 * m + 1)%Z with (1 + m * 2)%Z by lia. rewrite Z.div_add by lia. reflexivity. }
  unfold multi_value. fold mx my D. set (S := rsum M _) in *.
  assert (E: (S / D / IZR n * (D * IZR n) = S)%R) by (field; split; lra).
  set (v := (S / D / IZR n)%R) in *. apply Rabs_le_between in S1. assert (PP: (0 < D * IZR n)%R) by (apply Rmult_lt_0_compat; lra). split; nra.
Qed.

(* ------------------------------------------------------------------ *)
(** ** Structures that do not vary along the channels *)
Lemma column_no_gain e omega eps dl px L0 c amp beta l0 s s' X Y Z :
  solver_exact e -> (0 < dl)%R -> (0 < nd_nx eps)%nat -> (2 <= nd_ny eps)%nat -> (INR (nd_ny eps) * dl = beta * l0)%R ->
  (forall i j, (i < nd_nx eps)%nat -> (j < nd_ny eps)%nat -> nd_at eps i j = nd_at eps i 0) ->
  driven omega eps dl [px; 0]%Z L0 c amp = Ok s -> nonsingular (s_M s) (s_A s) -> solve_fields e false false s = (s', Ok (X, Y, Z)) ->
  forall i, (i < nd_nx eps)%nat -> csum (nd_ny eps) (fun j => Y (pix (nd_ny eps) i j) * electron_phase dl beta l0 j)%C = RtoC 0.
Proof.
  intros He Hd Hx Hy HG HU D HN Q i Hi. assert (Hy': (0 < nd_ny eps)%nat) by lia.
  destruct (driven_inv e _ _ _ _ _ _ _ _ Hd Hx Hy' D) as (t & S1 & -> & R1 & N1 & N2 & N3 & N4).
  assert (EQ: moved_by (nd_nx eps) (nd_ny eps) 0 1 Y Y).
  { destruct (C79_translation_beside_pml e t t R1 R1 He ltac:(rewrite N1; exact Hx) ltac:(rewrite N2; exact Hy') (same_shape_grid _ _ _ _ _ _ _ _ _ eq_refl eq_refl S1 S1) HN 0%nat 1%nat _ _ false _ _ _ _ _ _ _ _ ltac:(right; apply Nat.mod_0_l; lia) ltac:(left; exact (N4 px eq_refl))
      ltac:(rewrite N1, N2, N3; intros a b Ha Hb; rewrite Nat.add_0_r, (Nat.mod_small a) by exact Ha; change (nd_at eps a ((b + 1) mod nd_ny eps) = nd_at eps a b); rewrite (HU a b Ha Hb); apply HU; [exact Ha|apply Nat.mod_upper_bound; lia])
      ltac:(rewrite N1, N2; apply column_moves; assumption) Q Q) as (_ & _ & K).
    rewrite N1, N2 in K. exact K. }
  set (g := csum (nd_ny eps) _).
  assert (E: g = (electron_phase dl beta l0 1 * g)%C).
  { unfold g at 1. rewrite <- (shift_sum _ 1) by exact Hy'. unfold g. rewrite <- csum_scal. apply csum_ext. intros j Hj.
    assert (K := EQ _ j Hi Hj). rewrite Nat.add_0_r, (Nat.mod_small _ _ Hi) in K. rewrite K, (phase_shift (nd_ny eps)) by assumption. ring. }
  assert (Zr: ((electron_phase dl beta l0 1 - RtoC 1) * g)%C = RtoC 0) by (transitivity (electron_phase dl beta l0 1 * g - g)%C; [ring|]; rewrite <- E; ring).
  apply Cmult_integral in Zr as [Zr|Zr]; [|exact Zr].
  exfalso. apply (phase_one (nd_ny eps) dl beta l0 Hy HG Hd). replace (electron_phase dl beta l0 1) with (electron_phase dl beta l0 1 - RtoC 1 + RtoC 1)%C by ring. rewrite Zr. ring.
Qed.
Lemma multi_gain_inv e omega eps dl NPML L0 c amp gap L n beta l0 g : multi_gain e omega eps dl NPML L0 c amp gap L n beta l0 = Ok g ->
  exists s s' X Y Z eta, driven omega eps dl NPML L0 c amp = Ok s /\ solve_fields e false false s = (s', Ok (X, Y, Z)) /\
    multi_eta (nd_nx eps) (nd_ny eps) (channel_offsets gap L n dl) dl beta l0 = Ok eta /\ g = multi_value (nd_nx eps * nd_ny eps) eta n X Y.
Proof.
  unfold multi_gain. destruct (driven omega eps dl NPML L0 c amp) as [s|] eqn:E1; [|discriminate]. cbn [rbind].
  destruct (solve_fields e false false s) as [s' [[[X Y] Z]|]] eqn:E2; [|discriminate].
  destruct (multi_eta _ _ _ _ _ _) as [eta|] eqn:E3; [|discriminate]. cbn [rbind]. intro H.
  assert (I: forall a b : R, Ok a = Ok b -> a = b) by (intros a b Q; injection Q; auto). apply I in H.
  exists s, s', X, Y, Z, eta. split; [reflexivity|]. split; [exact E2|]. split; [reflexivity|]. symmetry; exact H.
Qed.
Theorem C124_uniform_channels_gain_nothing :
  forall e omega eps dl px L0 c amp gap L n beta lambda0 g,
  solver_exact e -> (0 < dl)%R -> (0 < nd_nx eps)%nat -> (2 <= nd_ny eps)%nat -> (INR (nd_ny eps) * dl = beta * lambda0)%R ->
  (forall i j, (i < nd_nx eps)%nat -> (j < nd_ny eps)%nat -> nd_at eps i j = nd_at eps i 0) ->
  (forall s, driven omega eps dl [px; 0]%Z L0 c amp = Ok s -> nonsingular (s_M s) (s_A s)) ->
  multi_gain e omega eps dl [px; 0]%Z L0 c amp gap L n beta lambda0 = Ok g -> g = 0%R.
Proof.
  intros e omega eps dl px L0 c amp gap L n beta l0 g He Hd Hx Hy HG HU HN H.
  apply multi_gain_inv in H as (s & s' & X & Y & Z & eta & D & Q & ET & ->). specialize (HN s D).
  unfold multi_value. rewrite <- Re_csum, csum_flat, csum_0; [cbn; unfold Rdiv; ring|].
  intros i Hi. cbv beta.
  rewrite (csum_ext _ _ (fun j => (if marked (nd_nx eps / 2) (channel_offsets gap L n dl) i then RtoC (1 / INR (nd_ny eps)) else RtoC 0) * (Y (pix (nd_ny eps) i j) * electron_phase dl beta l0 j))%C).
  - rewrite csum_scal, (column_no_gain e omega eps dl px L0 c amp beta l0 s s' X Y Z) by assumption. ring.
  - intros j Hj. rewrite (multi_eta_inv _ _ _ _ _ _ _ ET i j Hj). unfold pix. destruct (marked _ _ i); ring.
Qed.
(** the slabs of the builder do not vary along the channels *)
Theorem C124_slabs_are_uniform : forall beta gap lambda0 L spc n dl NPML eps_start eps design,
  accelerator_multi beta gap lambda0 L spc n dl NPML eps_start = Ok (eps, design) ->
  forall i j, (i < nd_nx eps)%nat -> (j < nd_ny eps)%nat -> nd_at eps i j = nd_at eps i 0.
Proof.
  intros * H i j Hi Hj. apply C76_slabs in H as (_ & p0 & nx & ny & _ & _ & _ & _ & _ & _ & _ & _ & F & _).
  destruct (F i j Hi Hj) as [F1 F2]. destruct (F i 0%nat Hi ltac:(lia)) as [F3 F4]. unfold multi_slabs in *.
  match type of F1 with ?P -> _ => destruct (Classical_Prop.classic P) as [Q|Q] end; [rewrite F1, F3 by exact Q|rewrite F2, F4 by exact Q]; reflexivity.
Qed.
(** The strength of the source cancels. *)
Lemma rmax_scaled M c (f g : nat -> R) : (0 <= c)%R -> (forall k, (k < M)%nat -> f k = (c * g k)%R) -> rmax M f = (c * rmax M g)%R.
Proof.
  intro Hc. induction M as [|M IH]; intro H; [cbn; ring|]. destruct M as [|M]; [cbn; apply H; lia|].
  change (rmax (S (S M)) f) with (Rmax (rmax (S M) f) (f (S M))). change (rmax (S (S M)) g) with (Rmax (rmax (S M) g) (g (S M))).
  rewrite IH by (intros; apply H; lia). rewrite (H (S M)) by lia. apply RmaxRmult. exact Hc.
Qed.
Theorem C124_source_strength_cancels :
  forall e omega eps dl NPML L0 c gap L n beta lambda0 x y g1 g2,
  solver_exact e -> (0 < x)%R -> (0 < y)%R -> (0 < dl)%R -> (0 < nd_nx eps)%nat -> (0 < nd_ny eps)%nat ->
  (forall s, driven omega eps dl NPML L0 c x = Ok s -> nonsingular (s_M s) (s_A s)) ->
  multi_gain e omega eps dl NPML L0 c x gap L n beta lambda0 = Ok g1 ->
  multi_gain e omega eps dl NPML L0 c y gap L n beta lambda0 = Ok g2 -> g1 = g2.
Proof.
  intros e omega eps dl NPML L0 c gap L n beta l0 x y g1 g2 He Hx0 Hy0 Hd Hx Hy HN H1 H2.
  apply multi_gain_inv in H1 as (s & s' & X & Y & Z & eta & D1 & Q1 & ET & ->). apply multi_gain_inv in H2 as (t & t' & X' & Y' & Z' & eta' & D2 & Q2 & ET' & ->).
  assert (EE: eta = eta') by (rewrite ET in ET'; injection ET'; auto). subst eta'. clear ET'. specialize (HN s D1).
  destruct (driven_inv e _ _ _ _ _ _ _ _ Hd Hx Hy D1) as (t1 & S1 & -> & R1 & N1 & N2 & _).
  destruct (driven_inv e _ _ _ _ _ _ _ _ Hd Hx Hy D2) as (t2 & S2 & -> & _). rewrite S1 in S2. injection S2 as <-.
  assert (HC: forall q, (q < s_M t1)%nat -> nd_buf (column_src (nd_nx eps) (nd_ny eps) c x) q = (RtoC (x / y) * nd_buf (column_src (nd_nx eps) (nd_ny eps) c y) q + RtoC 0 * nd_buf (column_src (nd_nx eps) (nd_ny eps) c y) q)%C).
  { intros q _. cbn [column_src nd_buf]. destruct (Nat.eqb _ c); [|ring]. rewrite RtoC_div by lra. field. apply RtoC_neq0. lra. }
  set (M := (nd_nx eps * nd_ny eps)%nat). assert (HM: s_M t1 = M) by (unfold s_M; rewrite N1, N2; reflexivity).
  assert (K: forall k, (k < M)%nat -> X k = (RtoC (x / y) * X' k)%C /\ Y k = (RtoC (x / y) * Y' k)%C).
  { intros k Hk. destruct (C10_linear_in_source e t1 R1 He HN false _ _ _ _ _ _ _ _ _ _ _ _ _ _ _ _ _ HC Q2 Q2 Q1 k ltac:(rewrite HM; exact Hk)) as (K1 & K2 & K3). split; [rewrite K1; ring|rewrite K2; ring]. }
  set (r := (x / y)%R) in *. assert (XY: (0 < r)%R) by (apply Rdiv_lt_0_compat; lra).
  unfold multi_value.
  rewrite (rmax_scaled M r (fun k => Cmod (X k)) (fun k => Cmod (X' k))); [|lra|intros k Hk; rewrite (proj1 (K k Hk)), Cmod_mult, Cmod_R, Rabs_pos_eq by lra; reflexivity].
  rewrite (rmax_scaled M r (fun k => Cmod (Y k)) (fun k => Cmod (Y' k))); [|lra|intros k Hk; rewrite (proj2 (K k Hk)), Cmod_mult, Cmod_R, Rabs_pos_eq by lra; reflexivity].
  rewrite (rsum_ext M (fun k => Re (Y k * eta k)%C) (fun k => r * Re (Y' k * eta k)%C)%R), rsum_scal.
  2:{ intros k Hk. rewrite (proj2 (K k Hk)), <- Cmult_assoc. autorewrite with reim. cbn [Re Im RtoC fst snd]. ring. }
  set (a := rmax M _). set (b := rmax M _). replace ((r * a) ^ 2 + (r * b) ^ 2)%R with (r ^ 2 * (a ^ 2 + b ^ 2))%R by ring.
  rewrite sqrt_mult_alt by nra. rewrite sqrt_pow2 by lra. set (q := sqrt (a ^ 2 + b ^ 2)). set (T := rsum M _).
  unfold Rdiv. rewrite Rinv_mult. transitivity ((r * / r) * (T * / q * / IZR n))%R; [ring|]. rewrite Rinv_r by lra. ring.
Qed.

(* ------------------------------------------------------------------ *)
(** ** The columns of the objective are the channels of the structure *)
Theorem C124_columns_are_channels :
  forall beta gap lambda0 L spc n dl NPML eps_start eps design,
  accelerator_multi beta gap lambda0 L spc n dl NPML eps_start = Ok (eps, design) ->
  (0 < dl)%R -> (4 * dl <= gap)%R -> (0 <= L)%R -> (0 <= spc)%R -> (1 <= n)%Z -> (forall p, nth_error NPML 0 = Some p -> (0 <= p)%Z) ->
  let offsets := channel_offsets gap L n dl in
  (exists eta, multi_eta (nd_nx eps) (nd_ny eps) offsets dl beta lambda0 = Ok eta) /\
  (forall i j, (i < nd_nx eps)%nat -> (j < nd_ny eps)%nat -> marked (nd_nx eps / 2) offsets i = true -> nd_at eps i j = 1%R).
Proof.
  intros beta gap l0 L spc n dl NPML eps_start eps design H Hd Hg HL Hs Hn HP offs.
  apply C76_slabs in H as (Ho & p0 & wx & wy & HP0 & _ & Tx & _ & SX & _ & _ & _ & F & _). specialize (HP _ HP0).
  apply Z.odd_spec in Ho as [h Hh]. assert (Eh: (n / 2)%Z = h) by (subst n; replace (2 * h + 1)%Z with (1 + h * 2)%Z by lia; rewrite Z.div_add by lia; reflexivity).
  assert (Hh0: (0 <= h)%Z) by lia. assert (Hh0': (0 <= IZR h)%R) by (apply IZR_le; exact Hh0).
  set (N := nd_nx eps) in *. set (nx := (N / 2)%nat).
  assert (Hnx: (2 * nx <= N <= 2 * nx + 1)%nat) by (unfold nx; assert (Q := Nat.div_mod N 2 ltac:(lia)); assert (Q' := Nat.mod_upper_bound N 2 ltac:(lia)); lia).
  set (u := (gap / dl)%R). set (v := (L / dl)%R). set (z := (spc / dl)%R).
  assert (Hu: (4 <= u)%R) by (apply (Rmult_le_reg_r dl); [exact Hd|]; unfold u; replace (gap / dl * dl)%R with gap by (field; lra); exact Hg).
  assert (Hv: (0 <= v)%R) by (apply Rmult_le_pos; [exact HL|apply Rlt_le, Rinv_0_lt_compat, Hd]).
  assert (Hz: (0 <= z)%R) by (apply Rmult_le_pos; [exact Hs|apply Rlt_le, Rinv_0_lt_compat, Hd]).
  assert (En: IZR n = (2 * IZR h + 1)%R) by (rewrite Hh, plus_IZR, mult_IZR; reflexivity).
  assert (ET: ((4 * spc + 2 * L * IZR n + gap * IZR n) / dl = 4 * z + 2 * v * IZR n + u * IZR n)%R) by (unfold u, v, z; field; lra).
  rewrite ET in Tx.
  assert (HW: (4 * z + 2 * v * IZR n + u * IZR n < IZR wx + 1)%R).
  { destruct Tx as [T1 _]. apply T1. rewrite En. nra. }
  assert (HNr: (IZR wx <= INR N)%R) by (rewrite INR_IZR_INZ; apply IZR_le; unfold N; lia).
  (* the offsets *)
  assert (HO: forall o, In o offs -> exists m, (0 <= m <= h)%Z /\ (0 <= IZR o)%R /\ (IZR o <= IZR m * (u + v) < IZR o + 1)%R /\ (2 * IZR o + 3 < INR N)%R).
  { intros o Hi. unfold offs, channel_offsets in Hi. apply in_map_iff in Hi as (m & <- & Hm). apply in_seq in Hm. rewrite Eh in Hm.
    exists (Z.of_nat m). split; [lia|]. rewrite <- INR_IZR_INZ. assert (M0 := pos_INR m).
    replace (INR m * (gap + L) / dl)%R with (INR m * (u + v))%R by (unfold u, v; field; lra).
    destruct (py_int_spec (INR m * (u + v))) as [P _]. assert (P0: (0 <= INR m * (u + v))%R) by (apply Rmult_le_pos; lra). specialize (P P0).
    assert (Q: (0 <= IZR (py_int (INR m * (u + v))))%R). { apply IZR_le. apply Z.lt_succ_r. apply lt_IZR. rewrite succ_IZR. lra. }
    split; [exact Q|]. split; [exact P|].
    assert (MH: (INR m <= IZR h)%R) by (rewrite INR_IZR_INZ; apply IZR_le; lia).
    assert (INR m * (u + v) <= IZR h * (u + v))%R by (apply Rmult_le_compat_r; lra).
    assert (0 <= v * IZR n)%R by (apply Rmult_le_pos; lra). rewrite En in *. nra. }
  split.
  - unfold multi_eta. destruct (List.existsb _ offs) eqn:EX; [|eexists; reflexivity]. exfalso.
    apply existsb_exists in EX as (o & Hi & Ho). apply Z.leb_le in Ho. destruct (HO o Hi) as (m & _ & _ & _ & B).
    assert (C1: (2 * o + 3 < Z.of_nat N)%Z) by (apply lt_IZR; rewrite plus_IZR, mult_IZR, <- INR_IZR_INZ; exact B). fold N nx in Ho. lia.
  - intros i j Hi Hj HM. apply existsb_exists in HM as (o & Hin & HM). destruct (HO o Hin) as (m & Hm & O0 & O1 & O2).
    destruct (F i j Hi Hj) as [_ F2]. apply F2. clear F F2.
    assert (N2: (2 <= N)%nat). { apply INR_le. change (INR 2) with 2%R. lra. }
    rewrite grid_coord_eq by exact N2. fold N.
    assert (B0 := pos_INR i). assert (B1: (INR i <= INR N - 1)%R) by (apply le_INR in Hi; rewrite S_INR in Hi; fold N in Hi; lra).
    assert (N2': (2 <= INR N)%R) by (apply le_INR in N2; exact N2).
    set (q := (INR i / (INR N - 1))%R). assert (Q0: (0 <= q)%R) by (apply Rmult_le_pos; [exact B0|apply Rlt_le, Rinv_0_lt_compat; lra]).
    assert (Q1: (q <= 1)%R) by (apply (Rmult_le_reg_r (INR N - 1)); [lra|]; unfold q; replace (INR i / (INR N - 1) * (INR N - 1))%R with (INR i) by (field; lra); lra).
    assert (EC: coordinate N dl i = ((INR i + q - INR N / 2) * dl)%R) by (unfold coordinate, q; field; lra).
    set (x := (INR i + q - INR N / 2)%R) in *.
    assert (NX: (2 * INR nx <= INR N <= 2 * INR nx + 1)%R).
    { destruct Hnx as [A B]. apply le_INR in A, B. rewrite plus_INR, mult_INR in B. rewrite mult_INR in A. simpl (INR 2) in A, B. simpl (INR 1) in B. lra. }
    assert (AX: (Rabs (Rabs x - IZR o) <= 1)%R).
    { apply orb_true_iff in HM. fold nx in HM.
      assert (CS: (INR i = INR nx - IZR o \/ INR i = INR nx + IZR o)%R).
      { destruct HM as [HM|HM]; apply Z.eqb_eq in HM; apply (f_equal IZR) in HM; [rewrite minus_IZR in HM; left|rewrite plus_IZR in HM; right]; rewrite <- !INR_IZR_INZ in HM; exact HM. }
      unfold x. destruct CS as [-> | ->]; unfold Rabs; repeat destruct (Rcase_abs _); lra. }
    rewrite EC. intros (t & Ht & G1 & G2). rewrite Rabs_mult, (Rabs_pos_eq dl) in G1, G2 by lra.
    apply Rabs_le_between in AX.
    assert (G1': (u / 2 < Rabs x - IZR t * (u + v))%R) by (apply (Rmult_lt_reg_r dl); [exact Hd|]; replace (u / 2 * dl)%R with (gap / 2)%R by (unfold u; field; lra); replace ((Rabs x - IZR t * (u + v)) * dl)%R with (Rabs x * dl - IZR t * (gap + L))%R by (unfold u, v; field; lra); exact G1).
    assert (G2': (Rabs x - IZR t * (u + v) < u / 2 + v)%R) by (apply (Rmult_lt_reg_r dl); [exact Hd|]; replace ((u / 2 + v) * dl)%R with (gap / 2 + L)%R by (unfold u, v; field; lra); replace ((Rabs x - IZR t * (u + v)) * dl)%R with (Rabs x * dl - IZR t * (gap + L))%R by (unfold u, v; field; lra); exact G2).
    destruct (Z_le_gt_dec m t) as [D|D].
    + assert (IZR m * (u + v) <= IZR t * (u + v))%R by (apply Rmult_le_compat_r; [lra|apply IZR_le; exact D]). lra.
    + assert (D': (t + 1 <= m)%Z) by lia. apply IZR_le in D'. rewrite plus_IZR in D'. assert ((IZR t + 1) * (u + v) <= IZR m * (u + v))%R by (apply Rmult_le_compat_r; lra). lra.
Qed.

(** Every channel is read: the one in the middle and n/2 on each side, each in a column less than
    two pixels from its axis. *)
Theorem C124_every_channel_is_read :
  forall beta gap lambda0 L spc n dl NPML eps_start eps design,
  accelerator_multi beta gap lambda0 L spc n dl NPML eps_start = Ok (eps, design) ->
  (0 < dl)%R -> (4 * dl <= gap)%R -> (0 <= L)%R -> (0 <= spc)%R -> (1 <= n)%Z -> (forall p, nth_error NPML 0 = Some p -> (0 <= p)%Z) ->
  forall m, (- (n / 2) <= m <= n / 2)%Z ->
  exists i, (i < nd_nx eps)%nat /\ marked (nd_nx eps / 2) (channel_offsets gap L n dl) i = true /\
    (Rabs (coordinate (nd_nx eps) dl i - IZR m * (gap + L)) < 2 * dl)%R.
Proof.
  intros beta gap l0 L spc n dl NPML eps_start eps design H Hd Hg HL Hs Hn HP m Hm.
  apply C76_slabs in H as (Ho & p0 & wx & wy & HP0 & _ & Tx & _ & SX & _ & _ & _ & _ & _). specialize (HP _ HP0).
  apply Z.odd_spec in Ho as [h Hh]. assert (Eh: (n / 2)%Z = h) by (subst n; replace (2 * h + 1)%Z with (1 + h * 2)%Z by lia; rewrite Z.div_add by lia; reflexivity).
  assert (Hh0: (0 <= h)%Z) by lia. assert (Hh0': (0 <= IZR h)%R) by (apply IZR_le; exact Hh0).
  set (N := nd_nx eps) in *. set (nx := (N / 2)%nat).
  assert (Hnx: (2 * nx <= N <= 2 * nx + 1)%nat) by (unfold nx; assert (Q := Nat.div_mod N 2 ltac:(lia)); assert (Q' := Nat.mod_upper_bound N 2 ltac:(lia)); lia).
  set (u := (gap / dl)%R). set (v := (L / dl)%R). set (z := (spc / dl)%R).
  assert (Hu: (4 <= u)%R) by (apply (Rmult_le_reg_r dl); [exact Hd|]; unfold u; replace (gap / dl * dl)%R with gap by (field; lra); exact Hg).
  assert (Hv: (0 <= v)%R) by (apply Rmult_le_pos; [exact HL|apply Rlt_le, Rinv_0_lt_compat, Hd]).
  assert (Hz: (0 <= z)%R) by (apply Rmult_le_pos; [exact Hs|apply Rlt_le, Rinv_0_lt_compat, Hd]).
  assert (En: IZR n = (2 * IZR h + 1)%R) by (rewrite Hh, plus_IZR, mult_IZR; reflexivity).
  assert (ET: ((4 * spc + 2 * L * IZR n + gap * IZR n) / dl = 4 * z + 2 * v * IZR n + u * IZR n)%R) by (unfold u, v, z; field; lra).
  rewrite ET in Tx.
  assert (HW: (4 * z + 2 * v * IZR n + u * IZR n < IZR wx + 1)%R) by (destruct Tx as [T1 _]; apply T1; rewrite En; nra).
  assert (HNr: (IZR wx <= INR N)%R) by (rewrite INR_IZR_INZ; apply IZR_le; unfold N; lia).
  set (a := Z.abs_nat m). assert (Ha: (INR a = Rabs (IZR m))%R) by (unfold a; rewrite INR_IZR_INZ, Zabs2Nat.id_abs, abs_IZR; reflexivity).
  assert (M0 := pos_INR a). assert (MH: (INR a <= IZR h)%R) by (rewrite INR_IZR_INZ; apply IZR_le; unfold a; lia).
  set (o := py_int (INR a * (gap + L) / dl)).
  assert (Hin: In o (channel_offsets gap L n dl)). { unfold channel_offsets. apply in_map_iff. exists a. split; [reflexivity|]. apply in_seq. rewrite Eh. unfold a. lia. }
  assert (P: (IZR o <= INR a * (u + v) < IZR o + 1)%R).
  { unfold o. replace (INR a * (gap + L) / dl)%R with (INR a * (u + v))%R by (unfold u, v; field; lra). apply (py_int_spec (INR a * (u + v))). apply Rmult_le_pos; lra. }
  assert (P0: (0 <= INR a * (u + v))%R) by (apply Rmult_le_pos; lra).
  assert (O0: (0 <= o)%Z) by (apply Z.lt_succ_r, lt_IZR; rewrite succ_IZR; lra).
  assert (ON: (2 * o + 3 < Z.of_nat N)%Z).
  { apply lt_IZR. rewrite plus_IZR, mult_IZR, <- INR_IZR_INZ. assert (INR a * (u + v) <= IZR h * (u + v))%R by (apply Rmult_le_compat_r; lra).
    assert (0 <= v * IZR n)%R by (apply Rmult_le_pos; lra). rewrite En in *. nra. }
  set (zi := if Z.leb 0 m then (Z.of_nat nx + o)%Z else (Z.of_nat nx - o)%Z).
  assert (Hzi: (0 <= zi < Z.of_nat N)%Z) by (unfold zi; destruct (Z.leb 0 m); lia).
  exists (Z.to_nat zi). split; [lia|]. split.
  { apply existsb_exists. exists o. split; [exact Hin|]. rewrite Z2Nat.id by lia. fold nx. apply orb_true_iff. unfold zi. destruct (Z.leb 0 m); [right|left]; apply Z.eqb_refl. }
  set (i := Z.to_nat zi). assert (Ei: INR i = IZR zi) by (unfold i; rewrite INR_IZR_INZ, Z2Nat.id by lia; reflexivity).
  assert (Hi: (i < N)%nat) by (unfold i; lia). assert (N2: (2 <= N)%nat) by lia.
  assert (B0 := pos_INR i). assert (B1: (INR i <= INR N - 1)%R) by (apply le_INR in Hi; rewrite S_INR in Hi; lra).
  assert (N2': (2 <= INR N)%R) by (apply le_INR in N2; exact N2).
  set (q := (INR i / (INR N - 1))%R). assert (Q0: (0 <= q)%R) by (apply Rmult_le_pos; [exact B0|apply Rlt_le, Rinv_0_lt_compat; lra]).
  assert (Q1: (q <= 1)%R) by (apply (Rmult_le_reg_r (INR N - 1)); [lra|]; unfold q; replace (INR i / (INR N - 1) * (INR N - 1))%R with (INR i) by (field; lra); lra).
  assert (EC: (coordinate N dl i - IZR m * (gap + L) = (INR i + q - INR N / 2 - IZR m * (u + v)) * dl)%R) by (unfold coordinate, q, u, v; field; lra).
  rewrite EC, Rabs_mult, (Rabs_pos_eq dl) by lra. apply Rmult_lt_compat_r; [exact Hd|].
  assert (NX: (2 * INR nx <= INR N <= 2 * INR nx + 1)%R).
  { destruct Hnx as [A B]. apply le_INR in A, B. rewrite plus_INR, mult_INR in B. rewrite mult_INR in A. simpl (INR 2) in A, B. simpl (INR 1) in B. lra. }
  rewrite Ei. unfold zi. rewrite Ha in P. destruct (Z.leb_spec 0 m) as [Sg|Sg]; apply IZR_le in Sg || apply IZR_lt in Sg.
  - rewrite plus_IZR, <- INR_IZR_INZ. rewrite Rabs_pos_eq in P by exact Sg. apply Rabs_def1; lra.
  - rewrite minus_IZR, <- INR_IZR_INZ. rewrite Rabs_left in P by exact Sg. apply Rabs_def1; lra.
Qed.

(* ------------------------------------------------------------------ *)
(** ** Examples *)
Lemma ex_offsets : channel_offsets 1 1 3 1 = [0; 2]%Z.
Proof.
  unfold channel_offsets. change (Z.to_nat (3 / 2 + 1)) with 2%nat. cbn [List.seq List.map].
  f_equal; [|f_equal]; apply py_int_unique; split; simpl INR; intros; lra.
Qed.
Lemma ex_eta : exists eta, multi_eta 6 3 (channel_offsets 1 1 3 1) 1 1 3 = Ok eta.
Proof. rewrite ex_offsets. eexists. reflexivity. Qed.
(** three channels, the columns 1, 3 and 5 of a 6 x 3 domain: a field in step with the electron
    reaches the bound *)
Example C124_gain_bound_met : exists eta, multi_eta 6 3 (channel_offsets 1 1 3 1) 1 1 3 = Ok eta /\
  (forall i, (i < 6)%nat -> marked 3 (channel_offsets 1 1 3 1) i = Nat.odd i) /\
  let ey : vec := fun k => Cconj (electron_phase 1 1 3 (k mod 3)) in multi_value (6 * 3) eta 3 vzero ey = 1%R.
Proof.
  destruct ex_eta as [eta HE]. exists eta. split; [exact HE|].
  assert (HM: forall i, (i < 6)%nat -> marked 3 (channel_offsets 1 1 3 1) i = Nat.odd i) by (intros i Hi; rewrite ex_offsets; do 6 (destruct i as [|i]; [reflexivity|]); lia).
  split; [exact HM|]. intro ey.
  assert (M1: forall k, Cmod (ey k) = 1%R) by (intro k; unfold ey; rewrite Cmod_conj; apply phase_mod).
  assert (E1: rmax (6 * 3) (fun k => Cmod (ey k)) = 1%R) by (destruct (rmax_spec (6 * 3) (fun k => Cmod (ey k)) ltac:(lia)) as [(i & _ & ->) _]; apply M1).
  assert (E2: rmax (6 * 3) (fun k => Cmod (vzero k)) = 0%R) by (destruct (rmax_spec (6 * 3) (fun k => Cmod (vzero k)) ltac:(lia)) as [(i & _ & ->) _]; apply Cmod_0).
  unfold multi_value. rewrite E1, E2. replace (0 ^ 2 + 1 ^ 2)%R with 1%R by ring. rewrite sqrt_1.
  rewrite rsum_flat. rewrite (rsum_ext 6 _ (fun i => ind (Nat.odd i))).
  - cbn [rsum Nat.odd Nat.even negb ind]. lra.
  - intros i Hi. rewrite (rsum_ext 3 _ (fun _ => (ind (Nat.odd i) / 3)%R)); [cbn [rsum]; lra|].
    intros j Hj. rewrite (multi_eta_inv _ _ _ _ _ _ _ HE i j Hj). change (6 / 2)%nat with 3%nat. rewrite (HM i Hi). unfold ey. rewrite flat_mod by exact Hj.
    destruct (Nat.odd i); cbn [ind]; [|rewrite Cmult_0_r; cbn; lra].
    unfold electron_phase. set (t := (2 * PI * 1 * INR j / 1 / 3)%R). assert (Q := sin2_cos2 t). unfold Rsqr in Q. change (INR 3) with (2 + 1)%R.
    unfold Cconj, Cmult, RtoC, Re; cbn [fst snd]. nra.
Qed.
(** a tooth and the empty domain at one frequency *)
Example C124_met : exists w, solver_exact ex_env /\ (INR 3 * 1 = 1 * 3)%R /\
  (forall i j, (i < 6)%nat -> (j < 3)%nat -> nd_at (tooth 99) i j = nd_at (tooth 99) i 0) /\
  forall p amp, In p [9; 99]%nat -> (forall s, driven w (tooth p) 1 [1; 0]%Z 1 0 amp = Ok s -> nonsingular (s_M s) (s_A s)) /\
    exists g, multi_gain ex_env w (tooth p) 1 [1; 0]%Z 1 0 amp 1 1 3 1 3 = Ok g.
Proof.
  assert (HP: forall p, positive (tooth p)) by (intros p k _; cbn [tooth nd_buf]; destruct (Nat.eqb k p); lra).
  destruct (C106_almost_every_frequency (tooth 9) 1 (Some [1; 0]%Z) "Hz" 1 ltac:(lra) (HP _)) as [l1 H1].
  destruct (C106_almost_every_frequency (tooth 99) 1 (Some [1; 0]%Z) "Hz" 1 ltac:(lra) (HP _)) as [l3 H3].
  destruct (outside_list (l1 ++ l3)) as (w & Hw & Hn). exists w.
  assert (N1: ~ In w l1) by (intro Q; apply Hn, in_or_app; left; exact Q).
  assert (N3: ~ In w l3) by (intro Q; apply Hn, in_or_app; right; exact Q).
  split; [exact ex_env_exact|]. split; [simpl; lra|]. split.
  { intros i j Hi Hj. do 6 (destruct i as [|i]; [do 3 (destruct j as [|j]; [reflexivity|]); lia|]). lia. }
  intros p amp Hp. split.
  { intros s D. destruct Hp as [<-|[<-|[]]]; [exact (ex_driven_ns _ _ _ H1 N1 _ _ D)|exact (ex_driven_ns _ _ _ H3 N3 _ _ D)]. }
  destruct (ex_driven w p amp Hw) as (s & D & Ey & F). unfold multi_gain. rewrite D. cbn [rbind]. unfold Ey_of in F.
  destruct (solve_fields ex_env false false s) as [s' [[[X Y] Z]|]]; [|discriminate]. change (nd_nx (tooth p)) with 6%nat. change (nd_ny (tooth p)) with 3%nat.
  destruct ex_eta as [eta ->]. cbn [rbind]. eexists. reflexivity.
Qed.
(** three channels of four pixels: the hypotheses of the two theorems on the columns *)
Example C124_columns_met : exists r, accelerator_multi 1 4 2 1 1 3 1 [0]%Z 12 = Ok r.
Proof.
  unfold accelerator_multi, npml_at, py_div. cbn [Z.modulo Z.div_eucl nth_error rbind]. cbn. destruct (Req_EM_T 1 0); [lra|]. cbn [rbind].
  replace (py_int ((4 * 1 + 2 * 1 * 3 + 4 * 3) / 1)) with 22%Z by (symmetry; apply py_int_unique, trunc_eq; lra).
  replace (py_int (1 * 2 / 1)) with 2%Z by (symmetry; apply py_int_unique, trunc_eq; lra).
  apply build_ok; lia.
Qed.
