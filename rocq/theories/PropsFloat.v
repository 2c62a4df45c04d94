(** C104: grid sizes computed in floating point. *)
From Coq Require Import Reals Lra Lia List ZArith Psatz.
From Flocq Require Import Core Plus_error Relative BinarySingleNaN.
From Verif Require Import Base MCore MSim MStruct MFloat.
Local Open Scope R_scope.

Notation fexp64 := (FLT_exp (-1074) 53).
Lemma powerRZ_bpow e : powerRZ 2 e = bpow radix2 e.
Proof. rewrite bpow_powerRZ. reflexivity. Qed.
Lemma b64_format x : b64 x <-> generic_format radix2 fexp64 x.
Proof.
  split.
  - intros (m & e & -> & Hm & He). apply generic_format_FLT. exists (Float radix2 m e); [unfold F2R; cbn; rewrite powerRZ_bpow; reflexivity|exact Hm|exact He].
  - intro H. apply FLT_format_generic in H; [|reflexivity]. destruct H as [[m e] H1 H2 H3]. exists m, e. unfold F2R in H1. cbn in *. rewrite powerRZ_bpow. auto.
Qed.
Lemma fl_b64 x : b64 (fl x). Proof. apply b64_format. apply generic_format_round; [apply FLT_exp_valid; reflexivity|apply valid_rnd_N]. Qed.
Lemma fl_id x : b64 x -> fl x = x.
Proof. intro H. apply round_generic; [apply valid_rnd_N|]. apply b64_format, H. Qed.
Lemma fl_mono x y : x <= y -> fl x <= fl y.
Proof. apply round_le; [apply FLT_exp_valid; reflexivity|apply valid_rnd_N]. Qed.
Lemma b64_IZR n : (Z.abs n < 2 ^ 53)%Z -> b64 (IZR n).
Proof. intro H. exists n, 0%Z. cbn. split; [ring|]. split; [exact H|lia]. Qed.
Lemma b64_twice x k : (0 <= k)%Z -> b64 x -> b64 (powerRZ 2 k * x).
Proof. intros Hk (m & e & -> & Hm & He). exists m, (e + k)%Z. rewrite powerRZ_add by lra. split; [ring|]. split; [exact Hm|lia]. Qed.

Definition normal (x : R) : Prop := x = 0 \/ powerRZ 2 (-1022) <= Rabs x.
Lemma u_value : / 2 * bpow radix2 (-53 + 1) = / 2 ^ 53.
Proof. rewrite (pow_IZR 2 53). cbn -[IZR]. lra. Qed.
Lemma fl_error x : normal x -> Rabs (fl x - x) <= / 2 ^ 53 * Rabs x.
Proof.
  intros [->|H].
  - rewrite (fl_id 0) by (apply (b64_IZR 0); reflexivity). unfold Rminus. rewrite Rplus_opp_r, Rabs_R0. lra.
  - rewrite <- u_value.
    apply relative_error_N_FLT; [reflexivity|]. rewrite <- powerRZ_bpow. exact H.
Qed.
Lemma fl_plus_error x y : b64 x -> b64 y -> Rabs (fl (x + y) - (x + y)) <= / 2 ^ 53 * Rabs (x + y).
Proof.
  intros Hx Hy. apply b64_format in Hx, Hy. destruct (@FLT_plus_error_N_ex radix2 (-1074) 53 eq_refl (fun x => negb (Z.even x)) x y Hx Hy) as (eps & He & E).
  unfold fl. rewrite E. replace ((x + y) * (1 + eps) - (x + y)) with (eps * (x + y)) by ring. rewrite Rabs_mult. apply Rmult_le_compat_r; [apply Rabs_pos|].
  eapply Rle_trans; [exact He|]. eapply Rle_trans; [apply u_rod1pu_ro_le_u_ro|]. unfold u_ro. apply Req_le, u_value.
Qed.
Lemma py_int_floor x : 0 <= x -> py_int x = Zfloor x.
Proof.
  intro H. unfold py_int. destruct (Rle_dec 0 x); [|contradiction]. symmetry. apply Zfloor_imp. destruct (base_Int_part x) as [A B].
  rewrite plus_IZR. lra.
Qed.
Lemma floor_close x y : Rabs (x - y) < 1 -> (Z.abs (Zfloor x - Zfloor y) <= 1)%Z.
Proof.
  intro H. apply Rabs_def2 in H as [A B]. assert (X1 := Zfloor_lb x). assert (X2 := Zfloor_ub x). assert (Y1 := Zfloor_lb y). assert (Y2 := Zfloor_ub y).
  assert (Zfloor x < Zfloor y + 2)%Z by (apply lt_IZR; rewrite plus_IZR; lra). assert (Zfloor y < Zfloor x + 2)%Z by (apply lt_IZR; rewrite plus_IZR; lra). lia.
Qed.

(** [rel k x' x]: x' is x up to k units of 2^-52 *)
Definition rel (k : nat) (x' x : R) : Prop := 0 <= x /\ Rabs (x' - x) <= INR k * / 2 ^ 52 * x.
Lemma v_value : / 2 ^ 52 = 2 * / 2 ^ 53 /\ 0 < / 2 ^ 53 <= / 2 ^ 50 * / 8 /\ / 2 ^ 50 <= / 1024.
Proof. rewrite (pow_IZR 2 53), (pow_IZR 2 52), (pow_IZR 2 50). cbn -[IZR]. lra. Qed.
Lemma rel_0 x : 0 <= x -> rel 0 x x.
Proof. intro H. split; [exact H|]. unfold Rminus. rewrite Rplus_opp_r, Rabs_R0. cbn. lra. Qed.
Lemma rel_weak j k x' x : (j <= k)%nat -> rel j x' x -> rel k x' x.
Proof.
  intros Hjk [H1 H2]. split; [exact H1|]. eapply Rle_trans; [exact H2|]. destruct v_value as (V1 & V2 & _). apply Rmult_le_compat_r; [exact H1|].
  apply Rmult_le_compat_r; [lra|]. apply le_INR, Hjk.
Qed.
Lemma rel_small k x' x : (k <= 8)%nat -> rel k x' x -> x * (1 - / 64) <= x' <= x * (1 + / 64).
Proof.
  intros Hk H. apply (rel_weak k 8) in H; [|exact Hk]. destruct H as [H1 H2]. destruct v_value as (V1 & V2 & V3). apply Rabs_le_inv in H2.
  assert (INR 8 * / 2 ^ 52 <= / 64) by (cbn [INR]; lra). assert (INR 8 * / 2 ^ 52 * x <= / 64 * x) by (apply Rmult_le_compat_r; assumption). lra.
Qed.
Lemma rel_fl k x' x : (k <= 8)%nat -> rel k x' x -> Rabs (fl x' - x') <= / 2 ^ 53 * Rabs x' -> rel (S k) (fl x') x.
Proof.
  intros Hk H E. destruct (rel_small k x' x Hk H) as [L U]. destruct H as [H1 H2]. split; [exact H1|]. destruct v_value as (V1 & V2 & _).
  replace (fl x' - x) with ((fl x' - x') + (x' - x)) by ring. eapply Rle_trans; [apply Rabs_triang|].
  rewrite S_INR. assert (E2 : / 2 ^ 53 * Rabs x' <= / 2 ^ 52 * x). { rewrite V1, Rabs_right by lra. assert (/ 2 ^ 53 * x' <= / 2 ^ 53 * (2 * x)) by (apply Rmult_le_compat_l; lra). lra. }
  lra.
Qed.
Lemma rel_plus j k x' x y' y : rel j x' x -> rel k y' y -> rel (Nat.max j k) (x' + y') (x + y).
Proof.
  intros H G. apply (rel_weak _ (Nat.max j k)) in H; [|lia]. apply (rel_weak _ (Nat.max j k)) in G; [|lia]. destruct H as [H1 H2], G as [G1 G2]. split; [lra|].
  replace (x' + y' - (x + y)) with ((x' - x) + (y' - y)) by ring. eapply Rle_trans; [apply Rabs_triang|]. lra.
Qed.
Lemma rel_scal k x' x c : 0 <= c -> rel k x' x -> rel k (x' * c) (x * c).
Proof.
  intros Hc [H1 H2]. split; [apply Rmult_le_pos; assumption|]. replace (x' * c - x * c) with ((x' - x) * c) by ring. rewrite Rabs_mult, (Rabs_right c) by lra.
  replace (INR k * / 2 ^ 52 * (x * c)) with (INR k * / 2 ^ 52 * x * c) by ring. apply Rmult_le_compat_r; assumption.
Qed.
Lemma bpow_tiny : 0 < powerRZ 2 (-1022) <= / 4.
Proof.
  rewrite powerRZ_bpow. split; [apply bpow_gt_0|]. apply Rle_trans with (bpow radix2 (-2)); [apply bpow_le; lia|]. cbn. lra.
Qed.
Lemma fl_nonneg x : 0 <= x -> 0 <= fl x.
Proof. intro H. rewrite <- (fl_id 0) by (apply (b64_IZR 0); reflexivity). apply fl_mono, H. Qed.
Lemma b64_half : b64 (/ 2). Proof. exists 1%Z, (-1)%Z. change (powerRZ 2 (-1)) with (/ (2 * 1)). split; [lra|]. split; lia. Qed.

Lemma quotient_close k a' a dl : (k <= 7)%nat -> 0 < dl -> rel k a' a ->
  0 <= fl (a' / dl) /\ (py_int (fl (a' / dl)) = py_int (a / dl) \/ Rabs (fl (a' / dl) - a / dl) <= / 2 ^ 49 * (a / dl)).
Proof.
  intros Hk Hdl H. assert (ID := Rinv_0_lt_compat _ Hdl). apply (rel_scal k a' a (/ dl)) in H; [|lra]. fold (a' / dl) (a / dl) in H.
  destruct (rel_small k _ _ ltac:(lia) H) as [B1 B2]. set (q' := a' / dl) in *. set (q := a / dl) in *. assert (Hq : 0 <= q) by apply H.
  assert (Hq' : 0 <= q') by lra. split; [apply fl_nonneg, Hq'|].
  destruct (Rle_dec (powerRZ 2 (-1022)) q') as [N|N].
  - right. assert (R1 : rel 8 (fl q') q). { apply (rel_weak (S k)); [lia|]. apply rel_fl; [lia|exact H|]. apply fl_error. right. rewrite Rabs_right by lra. exact N. }
    destruct R1 as [_ R1]. eapply Rle_trans; [exact R1|]. apply Rmult_le_compat_r; [exact Hq|]. rewrite (pow_IZR 2 52), (pow_IZR 2 49). cbn -[IZR]. lra.
  - left. assert (T := bpow_tiny). rewrite !py_int_floor; [|exact Hq|apply fl_nonneg, Hq'].
    assert (F1 : 0 <= fl q' <= / 2). { split; [apply fl_nonneg, Hq'|]. rewrite <- (fl_id (/ 2)) by apply b64_half. apply fl_mono. lra. }
    rewrite (Zfloor_imp 0 (fl q')), (Zfloor_imp 0 q); [reflexivity|..]; cbn; lra.
Qed.
(** the quotient is not within rounding of an integer *)
Definition robust (q : R) : Prop := exists n : Z, IZR n <= q - / 2 ^ 49 * q /\ q + / 2 ^ 49 * q < IZR n + 1.
Definition agree (N N' : Z) (q : R) : Prop := (Z.abs (N - N') <= 1)%Z /\ (robust q -> N = N').
Lemma quotient_agree k a' a dl p : (k <= 7)%nat -> 0 < dl -> a / dl <= 2 ^ 48 -> rel k a' a -> agree (p + py_int (fl (a' / dl))) (p + py_int (a / dl)) (a / dl).
Proof.
  intros Hk Hdl HB H. destruct (quotient_close k a' a dl Hk Hdl H) as [P [E|E]].
  - rewrite E. split; [lia|auto].
  - assert (Hq : 0 <= a / dl) by (apply Rmult_le_pos; [apply H|left; apply Rinv_0_lt_compat, Hdl]). set (q := a / dl) in *. set (f := fl (a' / dl)) in *.
    rewrite !py_int_floor by assumption. split.
    + replace (p + Zfloor f - (p + Zfloor q))%Z with (Zfloor f - Zfloor q)%Z by ring. apply floor_close. eapply Rle_lt_trans; [exact E|].
      apply Rle_lt_trans with (/ 2 ^ 49 * 2 ^ 48). { apply Rmult_le_compat_l; [left; apply Rinv_0_lt_compat, pow_lt; lra|exact HB]. }
      rewrite (pow_IZR 2 48), (pow_IZR 2 49). cbn -[IZR]. lra.
    + intros (n & N1 & N2). apply Rabs_le_inv in E.
      assert (0 <= / 2 ^ 49 * q) by (apply Rmult_le_pos; [left; apply Rinv_0_lt_compat, pow_lt; lra|exact Hq]).
      rewrite (Zfloor_imp n f), (Zfloor_imp n q); [reflexivity|..]; rewrite plus_IZR; lra.
Qed.

Lemma fl_times2 x : b64 x -> fl (2 * x) = 2 * x.
Proof. intro H. apply fl_id. change 2 with (IZR 2); replace (IZR 2 * x) with (powerRZ 2 1 * x) by (change (powerRZ 2 1) with (2 * 1); lra). apply b64_twice; [lia|exact H]. Qed.
Lemma fl_times4 x : b64 x -> fl (4 * x) = 4 * x.
Proof. intro H. apply fl_id. replace (4 * x) with (powerRZ 2 2 * x) by (change (powerRZ 2 2) with (2 * (2 * 1)); lra). apply b64_twice; [lia|exact H]. Qed.
Lemma b64_times2 x : b64 x -> b64 (2 * x). Proof. intro H. rewrite <- fl_times2 by exact H. apply fl_b64. Qed.
Lemma b64_times4 x : b64 x -> b64 (4 * x). Proof. intro H. rewrite <- fl_times4 by exact H. apply fl_b64. Qed.
Lemma rel_sum j k x' x y' y : (j <= 7)%nat -> (k <= 7)%nat -> b64 x' -> b64 y' -> rel j x' x -> rel k y' y -> rel (S (Nat.max j k)) (fl (x' + y')) (x + y).
Proof. intros Hj Hk Bx By Hx Hy. apply rel_fl; [lia|apply rel_plus; assumption|]. apply fl_plus_error; assumption. Qed.
Lemma cells_agree l L dl p : b64 l -> b64 L -> 0 <= l -> 0 <= L -> 0 < dl -> (2 * l + L) / dl <= 2 ^ 48 ->
  agree (p + cells_f l L dl) (p + py_int ((2 * l + L) / dl)) ((2 * l + L) / dl).
Proof.
  intros Bl BL Hl HL Hdl HB. unfold cells_f. rewrite fl_times2 by exact Bl.
  apply (quotient_agree 1); [lia|exact Hdl|exact HB|]. apply (rel_sum 0 0); [lia|lia|apply b64_times2, Bl|exact BL|apply rel_0; lra|apply rel_0; lra].
Qed.
Lemma build_shape Nx Ny dl r1 r2 a b e d : build Nx Ny dl r1 r2 a b = Ok (e, d) -> Nx = Z.of_nat (nd_nx e) /\ Ny = Z.of_nat (nd_ny e).
Proof.
  unfold build, grid_size. destruct (Z.ltb_spec Nx 0); [discriminate|]. destruct (Z.ltb_spec Ny 0); [discriminate|]. cbn [rbind].
  assert (HA : forall rs nx ny x y m, apply_regions rs nx ny dl x y = Ok m -> nd_nx m = nx /\ nd_ny m = ny).
  { intros rs nx ny x y m E. destruct rs; cbn in E; [injection E as <-; auto|]. destruct (Nat.eqb _ 0); [discriminate|]. injection E as <-. auto. }
  destruct (apply_regions r1 _ _ _ _ _) as [m|] eqn:E1; [|discriminate]. cbn [rbind]. destruct (apply_regions r2 _ _ _ _ _) as [m2|]; [|discriminate].
  cbn [rbind]. intro E. injection E as <- <-. destruct (HA _ _ _ _ _ _ E1) as [-> ->]. split; lia.
Qed.

(** ** C104: theorems *)
(** [fl] is what IEEE 754 asks of an operation: a binary64 number, none nearer to the exact result *)
Theorem C104_rounding_is_nearest : forall x, b64 (fl x) /\ forall y, b64 y -> Rabs (fl x - x) <= Rabs (y - x).
Proof.
  intro x. split; [apply fl_b64|]. intros y Hy. apply b64_format in Hy.
  destruct (@round_N_pt radix2 fexp64 (@FLT_exp_valid (-1074) 53 eq_refl) (fun z => negb (Z.even z)) x) as [_ H]. apply H, Hy.
Qed.
(** [shape_agrees (Nx, Ny) e qx qy]: the float computation gives the shape of the array e up to one cell in each
    direction, and exactly that shape when the exact quotients qx and qy are not within rounding of an integer *)
Definition shape_agrees (N : Z * Z) (e : nd R) (qx qy : R) : Prop :=
  agree (fst N) (Z.of_nat (nd_nx e)) qx /\ agree (snd N) (Z.of_nat (nd_ny e)) qy.
Definition length64 (x : R) : Prop := b64 x /\ 0 <= x.

Theorem C104_port_shapes : forall L H l spc dl p0 p1 e d,
  length64 L -> length64 H -> length64 l -> length64 spc -> b64 dl -> 0 < dl ->
  (2 * l + L) / dl <= 2 ^ 48 -> (2 * spc + H) / dl <= 2 ^ 48 ->
  ((exists w eps, two_port L H w l spc dl (p0 :: p1 :: nil) eps = Ok (e, d)) \/
   (exists w dd eps bg, three_port L H w dd l spc dl (p0 :: p1 :: nil) eps bg = Ok (e, d)) \/
   (exists N w dd eps bg, N_port N L H w dd l spc dl (p0 :: p1 :: nil) eps bg = Ok (e, d))) ->
  shape_agrees (port_shape_f L H l spc dl p0 p1) e ((2 * l + L) / dl) ((2 * spc + H) / dl).
Proof.
  intros L H l spc dl p0 p1 e d [BL PL] [BH PH] [Bl Pl] [Bs Ps] Bdl Pdl Q1 Q2 HS.
  assert (E : (2 * p0 + py_int ((2 * l + L) / dl))%Z = Z.of_nat (nd_nx e) /\ (2 * p1 + py_int ((2 * spc + H) / dl))%Z = Z.of_nat (nd_ny e)).
  { assert (EH : H + 2 * spc = 2 * spc + H) by ring.
    destruct HS as [(w & eps & E)|[(w & dd & eps & bg & E)|(N & w & dd & eps & bg & E)]]; unfold two_port, three_port, N_port, npml_at, py_div in E;
    destruct (Req_EM_T dl 0); try lra; cbn [nth_error rbind] in E; rewrite EH in E; apply build_shape in E; exact E. }
  unfold shape_agrees, port_shape_f. cbn [fst snd]. destruct E as [<- <-]. split; apply cells_agree; assumption.
Qed.
Theorem C104_ortho_shape : forall L L2 H H2 w l dl p0 p1 eps e d,
  length64 L -> length64 H -> length64 l -> b64 dl -> 0 < dl ->
  (2 * l + L) / dl <= 2 ^ 48 -> (2 * l + H) / dl <= 2 ^ 48 ->
  ortho_port L L2 H H2 w l dl (p0 :: p1 :: nil) eps = Ok (e, d) ->
  shape_agrees (ortho_shape_f L H l dl p0 p1) e ((2 * l + L) / dl) ((2 * l + H) / dl).
Proof.
  intros L L2 H H2 w l dl p0 p1 eps e d [BL PL] [BH PH] [Bl Pl] Bdl Pdl Q1 Q2 E.
  unfold ortho_port, npml_at, py_div in E. destruct (Req_EM_T dl 0); try lra; cbn [nth_error rbind] in E; apply build_shape in E as [E1 E2].
  unfold shape_agrees, ortho_shape_f. cbn [fst snd]. rewrite <- E1, <- E2. split; apply cells_agree; assumption.
Qed.
Theorem C104_accelerator_shape : forall beta gap lambda0 L spc dl p0 eps e d,
  length64 beta -> length64 gap -> length64 lambda0 -> length64 L -> length64 spc -> b64 dl -> 0 < dl -> normal (beta * lambda0) ->
  (4 * spc + 2 * L + gap) / dl <= 2 ^ 48 -> (beta * lambda0) / dl <= 2 ^ 48 ->
  accelerator beta gap lambda0 L spc dl (p0 :: nil) eps = Ok (e, d) \/ (exists p1, accelerator beta gap lambda0 L spc dl (p0 :: p1 :: nil) eps = Ok (e, d)) ->
  shape_agrees (accelerator_shape_f beta gap lambda0 L spc dl p0) e ((4 * spc + 2 * L + gap) / dl) ((beta * lambda0) / dl).
Proof.
  intros beta gap lambda0 L spc dl p0 eps e d [Bb Pb] [Bg Pg] [B0 P0] [BL PL] [Bs Ps] Bdl Pdl NB Q1 Q2 HE.
  assert (E : (2 * p0 + py_int ((4 * spc + 2 * L + gap) / dl))%Z = Z.of_nat (nd_nx e) /\ py_int (beta * lambda0 / dl) = Z.of_nat (nd_ny e)).
  { destruct HE as [E|[p1 E]]; unfold accelerator, npml_at, py_div in E; destruct (Req_EM_T dl 0); try lra; cbn [nth_error rbind] in E; apply build_shape in E; exact E. }
  unfold shape_agrees, accelerator_shape_f. cbn [fst snd]. destruct E as [<- <-]. rewrite fl_times2, fl_times4 by assumption. split.
  - apply (quotient_agree 2); [lia|exact Pdl|exact Q1|].
    apply (rel_sum 1 0); [lia|lia|apply fl_b64|exact Bg| |apply rel_0, Pg].
    apply (rel_sum 0 0); [lia|lia|apply b64_times4, Bs|apply b64_times2, BL|apply rel_0; lra|apply rel_0; lra].
  - apply (quotient_agree 1 _ _ _ 0); [lia|exact Pdl|exact Q2|]. apply rel_fl; [lia|apply rel_0, Rmult_le_pos; assumption|apply fl_error, NB].
Qed.
Theorem C104_accelerator_multi_shape : forall beta gap lambda0 L spc n dl p0 NPML eps e d,
  length64 beta -> length64 gap -> length64 lambda0 -> length64 L -> length64 spc -> b64 dl -> 0 < dl ->
  normal (beta * lambda0) -> normal (2 * L * IZR n) -> normal (gap * IZR n) -> (1 <= n)%Z ->
  (4 * spc + 2 * L * IZR n + gap * IZR n) / dl <= 2 ^ 48 -> (beta * lambda0) / dl <= 2 ^ 48 ->
  accelerator_multi beta gap lambda0 L spc n dl (p0 :: NPML) eps = Ok (e, d) ->
  shape_agrees (accelerator_multi_shape_f beta gap lambda0 L spc n dl p0) e ((4 * spc + 2 * L * IZR n + gap * IZR n) / dl) ((beta * lambda0) / dl).
Proof.
  intros beta gap lambda0 L spc n dl p0 NPML eps e d [Bb Pb] [Bg Pg] [B0 P0] [BL PL] [Bs Ps] Bdl Pdl NB NL NG Hn Q1 Q2 E.
  assert (Pn : 0 <= IZR n) by (apply IZR_le; lia).
  unfold accelerator_multi, npml_at, py_div in E. destruct (Z.eqb _ 1); [|discriminate]. destruct (Req_EM_T dl 0); try lra; cbn [nth_error rbind] in E; apply build_shape in E as [E1 E2].
  unfold shape_agrees, accelerator_multi_shape_f. cbn [fst snd]. rewrite <- E1, <- E2. rewrite fl_times2, fl_times4 by assumption. split.
  - apply (quotient_agree 3); [lia|exact Pdl|exact Q1|].
    apply (rel_sum 2 1); [lia|lia|apply fl_b64|apply fl_b64| |].
    + apply (rel_sum 0 1); [lia|lia|apply b64_times4, Bs|apply fl_b64|apply rel_0; lra|].
      apply rel_fl; [lia|apply rel_0, Rmult_le_pos; lra|apply fl_error, NL].
    + apply rel_fl; [lia|apply rel_0, Rmult_le_pos; lra|apply fl_error, NG].
  - apply (quotient_agree 1 _ _ _ 0); [lia|exact Pdl|exact Q2|]. apply rel_fl; [lia|apply rel_0, Rmult_le_pos; assumption|apply fl_error, NB].
Qed.
(** counting the cells of a waveguide from its width: the exact number, or one more *)
Theorem C104_width_never_loses : forall w dl, b64 w -> b64 dl -> 0 <= w -> 0 < dl -> w / dl <= 2 ^ 48 ->
  width_px_f w dl = py_int (w / dl) \/ width_px_f w dl = (py_int (w / dl) + 1)%Z.
Proof.
  intros w dl Bw Bd Hw Hd HB. assert (A := quotient_agree 0 w w dl 0 ltac:(lia) Hd HB (rel_0 w Hw)). destruct A as [A _]. cbn [Z.add] in A. fold (width_px_f w dl) in A.
  assert (Hq : 0 <= w / dl) by (apply Rmult_le_pos; [exact Hw|left; apply Rinv_0_lt_compat, Hd]).
  assert (L : (py_int (w / dl) <= width_px_f w dl)%Z); [|lia].
  unfold width_px_f. rewrite !py_int_floor by (try apply fl_nonneg; exact Hq). apply Zfloor_lub.
  rewrite <- (fl_id (IZR (Zfloor (w / dl)))). { apply fl_mono, Zfloor_lb. }
  apply b64_IZR. assert (0 <= Zfloor (w / dl))%Z by (apply (Zfloor_lub 0); exact Hq). rewrite Z.abs_eq by assumption. apply lt_IZR. eapply Rle_lt_trans; [apply Zfloor_lb|]. eapply Rle_lt_trans; [exact HB|].
  rewrite (pow_IZR 2 48). apply IZR_lt. reflexivity.
Qed.
(** a grid step that is a power of two: no rounding at all *)
Theorem C104_power_of_two_exact : forall w l L k, b64 w -> b64 l -> b64 (2 * l + L) -> (0 <= k)%Z ->
  width_px_f w (powerRZ 2 (- k)) = py_int (w / powerRZ 2 (- k)) /\ cells_f l L (powerRZ 2 (- k)) = py_int ((2 * l + L) / powerRZ 2 (- k)).
Proof.
  intros w l L k Bw Bl Bs Hk. assert (E : forall x, b64 x -> fl (x / powerRZ 2 (- k)) = x / powerRZ 2 (- k)).
  { intros x Bx. apply fl_id. assert (M : powerRZ 2 (- k) * powerRZ 2 k = 1) by (rewrite <- powerRZ_add by lra; replace (- k + k)%Z with 0%Z by lia; reflexivity).
    assert (N : powerRZ 2 (- k) <> 0) by (intro Z; rewrite Z in M; lra). replace (x / powerRZ 2 (- k)) with (powerRZ 2 k * x); [apply b64_twice; assumption|].
    apply (Rmult_eq_reg_r (powerRZ 2 (- k))); [|exact N]. unfold Rdiv. rewrite (Rmult_assoc x), Rinv_l by exact N. transitivity (x * (powerRZ 2 (- k) * powerRZ 2 k)); [ring|rewrite M; ring]. }
  unfold width_px_f, cells_f. rewrite fl_times2, (fl_id (2 * l + L)), !E by assumption. auto.
Qed.
(** halves of cell counts and the ends of probe and mode windows are computed exactly *)
Lemma py_int_half n : py_int (IZR n / 2) = Z.quot n 2.
Proof.
  assert (P : forall n, (0 <= n)%Z -> Zfloor (IZR n / 2) = (n / 2)%Z).
  { intros m Hm. apply Zfloor_imp. rewrite plus_IZR. assert (D := Z.div_mod m 2 ltac:(lia)). assert (B := Z.mod_pos_bound m 2 ltac:(lia)).
    assert (E : IZR m = 2 * IZR (m / 2) + IZR (m mod 2)) by (rewrite <- mult_IZR, <- plus_IZR; f_equal; exact D).
    assert (0 <= IZR (m mod 2) <= 1) by (split; apply IZR_le; lia). lra. }
  destruct (Z_le_dec 0 n) as [H|H].
  - assert (0 <= IZR n) by (apply IZR_le; exact H). rewrite py_int_floor by lra. rewrite P by exact H. symmetry. apply Z.quot_div_nonneg; lia.
  - assert (IZR n < 0) by (apply IZR_lt; lia). unfold py_int. destruct (Rle_dec 0 (IZR n / 2)); [lra|].
    replace (- (IZR n / 2)) with (IZR (- n) / 2) by (rewrite opp_IZR; lra).
    assert (Q : py_int (IZR (- n) / 2) = Zfloor (IZR (- n) / 2)) by (apply py_int_floor; rewrite opp_IZR; lra). unfold py_int in Q. destruct (Rle_dec 0 (IZR (- n) / 2)); [|rewrite opp_IZR in *; lra].
    rewrite Q, P by lia. rewrite <- (Z.opp_involutive n) at 2. rewrite Z.quot_opp_l by lia. f_equal. symmetry. apply Z.quot_div_nonneg; lia.
Qed.
Lemma b64_halves n : (Z.abs n < 2 ^ 53)%Z -> b64 (IZR n / 2).
Proof. intro H. exists n, (-1)%Z. change (powerRZ 2 (-1)) with (/ (2 * 1)). split; [lra|]. split; [exact H|lia]. Qed.
Theorem C104_halves_and_windows_exact : forall N c w, (Z.abs N < 2 ^ 53)%Z -> (2 * Z.abs c + Z.abs w < 2 ^ 53)%Z ->
  half_f N = Z.quot N 2 /\ window_f c w = (Z.quot (2 * c - w) 2, Z.quot (2 * c + w) 2).
Proof.
  intros N c w HN HC. unfold half_f, window_f. rewrite (fl_id (IZR N / 2)), (fl_id (IZR w / 2)) by (apply b64_halves; lia).
  replace (IZR c - IZR w / 2) with (IZR (2 * c - w) / 2) by (rewrite minus_IZR, mult_IZR; lra).
  replace (IZR c + IZR w / 2) with (IZR (2 * c + w) / 2) by (rewrite plus_IZR, mult_IZR; lra).
  rewrite !fl_id by (apply b64_halves; lia). rewrite !py_int_half. auto.
Qed.
(** lengths given as decimals: when L is exactly N grid steps, the float quotient gives N cells or N - 1 *)
Theorem C104_decimal_within_one : forall L dl N, 0 < dl -> (1 <= N <= 2 ^ 48)%Z -> L = IZR N * dl -> normal L -> normal dl ->
  (width_px_f (fl L) (fl dl) = N \/ width_px_f (fl L) (fl dl) = N - 1)%Z.
Proof.
  intros L dl N Hdl HN HL NL Nd. assert (N1 : 1 <= IZR N <= 2 ^ 48) by (rewrite (pow_IZR 2 48); split; apply IZR_le; apply HN).
  destruct v_value as (V1 & V2 & V3). assert (ED := fl_error dl Nd). assert (EL := fl_error L NL). assert (PL : 0 < L) by (rewrite HL; apply Rmult_lt_0_compat; lra). rewrite (Rabs_right dl) in ED by lra. rewrite (Rabs_right L) in EL by lra. apply Rabs_le_inv in ED, EL.
  set (u := / 2 ^ 53) in *. assert (U : u <= / 1024 * / 8) by lra. assert (UD : u * dl <= / 1024 * / 8 * dl) by (apply Rmult_le_compat_r; lra).
  assert (PD : 0 < fl dl) by lra. assert (UL : u * L <= / 1024 * / 8 * L) by (apply Rmult_le_compat_r; lra).
  set (q := fl L / fl dl). assert (Q1 : q * fl dl = fl L) by (unfold q; field; lra).
  assert (QB : Rabs (q - IZR N) <= 3 * u * IZR N).
  { apply Rabs_le. split; apply (Rmult_le_reg_r (fl dl)); try exact PD; rewrite Rmult_minus_distr_r, Q1.
    all: assert (A1 : IZR N * (dl - u * dl) <= IZR N * fl dl <= IZR N * (dl + u * dl)) by (split; apply Rmult_le_compat_l; lra).
    all: replace (IZR N * (dl - u * dl)) with (L - u * L) in A1 by (rewrite HL; ring); replace (IZR N * (dl + u * dl)) with (L + u * L) in A1 by (rewrite HL; ring).
    all: assert (A2 : u * (2 * L) <= u * (3 * (IZR N * fl dl))) by (apply Rmult_le_compat_l; lra).
    - lra.
    - lra. }
  assert (QP : / 2 <= q). { apply Rabs_le_inv in QB. assert (3 * u * IZR N <= / 2 * IZR N) by (apply Rmult_le_compat_r; lra). lra. }
  assert (EQ : Rabs (fl q - q) <= u * Rabs q). { apply fl_error. right. rewrite Rabs_right by lra. assert (T := bpow_tiny). lra. }
  assert (UN : u * IZR N <= / 32). { apply Rle_trans with (u * 2 ^ 48); [apply Rmult_le_compat_l; lra|]. unfold u. rewrite (pow_IZR 2 53), (pow_IZR 2 48). cbn -[IZR]. lra. }
  apply Rabs_le_inv in QB. rewrite (Rabs_right q) in EQ by lra. apply Rabs_le_inv in EQ.
  assert (UQ : u * q <= / 16). { assert (q <= 2 * IZR N) by (assert (3 * u * IZR N <= / 2 * IZR N) by (apply Rmult_le_compat_r; lra); lra). assert (u * q <= u * (2 * IZR N)) by (apply Rmult_le_compat_l; lra). lra. }
  assert (F : IZR N - 1 < fl q < IZR N + 1) by lra. unfold width_px_f. fold q. assert (0 <= fl q) by (apply fl_nonneg; lra). rewrite py_int_floor by assumption.
  destruct (Rle_dec (IZR N) (fl q)) as [G|G].
  - left. apply Zfloor_imp. rewrite plus_IZR. lra.
  - right. apply Zfloor_imp. rewrite plus_IZR, minus_IZR. lra.
Qed.

(** exact evaluation of a division of concrete binary64 numbers *)
Notation f64 := (binary_float 53 1024).
Definition f64_div : f64 -> f64 -> f64 := @Bdiv 53 1024 eq_refl eq_refl mode_NE.
Lemma f64_div_spec x y m e : B2R y <> 0 -> B2SF (f64_div x y) = SpecFloat.S754_finite false m e ->
  fl (B2R x / B2R y) = IZR (Zpos m) * bpow radix2 e /\ B2R (f64_div x y) = IZR (Zpos m) * bpow radix2 e.
Proof.
  intros Hy E. assert (S := @Bdiv_correct 53 1024 eq_refl eq_refl mode_NE x y Hy). fold (f64_div x y) in S.
  assert (V : B2R (f64_div x y) = IZR (Zpos m) * bpow radix2 e) by (rewrite <- SF2R_B2SF, E; reflexivity).
  destruct (Rlt_bool _ _); [destruct S as [S _]|rewrite E in S; discriminate]. rewrite <- V. split; [symmetry; exact S|reflexivity].
Qed.
Definition c1 : f64 := @B754_finite 53 1024 false 4503599627370496 (-52) eq_refl.
Definition c3 : f64 := @B754_finite 53 1024 false 6755399441055744 (-51) eq_refl.
Definition c10 : f64 := @B754_finite 53 1024 false 5629499534213120 (-49) eq_refl.
Lemma c_values : B2R c1 = 1 /\ B2R c3 = 3 /\ B2R c10 = 10.
Proof. unfold c1, c3, c10, B2R, F2R, Fnum, Fexp, cond_Zopp, bpow. cbn -[IZR]. lra. Qed.
(** 0.3/0.1 *)
Lemma three_tenths : fl (fl (3 / 10) / fl (1 / 10)) < 3.
Proof.
  destruct c_values as (E1 & E3 & E10).
  destruct (f64_div_spec c3 c10 5404319552844595 (-54)) as [A A']; [lra|vm_compute; reflexivity|].
  destruct (f64_div_spec c1 c10 7205759403792794 (-56)) as [B B']; [lra|vm_compute; reflexivity|].
  destruct (f64_div_spec (f64_div c3 c10) (f64_div c1 c10) 6755399441055743 (-51)) as [D _].
  { rewrite B'. apply Rgt_not_eq, Rmult_lt_0_compat; [apply IZR_lt; reflexivity|apply bpow_gt_0]. }
  { vm_compute. reflexivity. }
  rewrite E3, E10 in A. rewrite E1, E10 in B. rewrite A, B, <- A', <- B', D. unfold bpow. cbn -[IZR]. lra.
Qed.
Theorem C104_decimal_lengths_refuted : ~ (forall L dl N, 0 < dl -> (0 <= N)%Z -> L = IZR N * dl -> width_px_f (fl L) (fl dl) = N).
Proof.
  intro H. specialize (H (3 / 10) (1 / 10) 3%Z ltac:(lra) ltac:(lia) ltac:(lra)). unfold width_px_f in H. assert (T := three_tenths).
  rewrite py_int_floor in H by (apply fl_nonneg, Rmult_le_pos; [apply fl_nonneg; lra|]; 
    apply Rlt_le, Rinv_0_lt_compat; apply Rlt_le_trans with (bpow radix2 (-4)); [apply bpow_gt_0|]; 
    rewrite <- (fl_id (bpow radix2 (-4))) by (exists 1%Z, (-4)%Z; rewrite powerRZ_bpow; split; [ring|split; lia]); apply fl_mono; unfold bpow; cbn -[IZR]; lra).
  assert (L := Zfloor_lb (fl (fl (3 / 10) / fl (1 / 10)))). rewrite H in L. lra.
Qed.
(** the same for a whole grid: L = 0.3 and dl = 0.1 make two cells, not three *)
Theorem C104_grid_loses_a_cell : cells_f 0 (fl (3 / 10)) (fl (1 / 10)) = 2%Z.
Proof.
  assert (Z0 : fl (2 * 0) = 0) by (rewrite Rmult_0_r; apply fl_id, (b64_IZR 0); reflexivity).
  unfold cells_f. rewrite Z0, Rplus_0_l, (fl_id (fl (3 / 10))) by apply fl_b64. 
  destruct (C104_decimal_within_one (3 / 10) (1 / 10) 3) as [E|E]; try lra; try lia.
  - right. rewrite Rabs_right by lra. assert (T := bpow_tiny). lra.
  - right. rewrite Rabs_right by lra. 
    apply Rle_trans with (bpow radix2 (-4)); [rewrite powerRZ_bpow; apply bpow_le; lia|]. unfold bpow; cbn -[IZR]; lra.
  - exfalso. unfold width_px_f in E. assert (T := three_tenths). 
    destruct (Rle_dec 0 (fl (fl (3 / 10) / fl (1 / 10)))) as [P|P].
    + rewrite py_int_floor in E by exact P. assert (L := Zfloor_lb (fl (fl (3 / 10) / fl (1 / 10)))). rewrite E in L. lra.
    + unfold py_int in E. destruct (Rle_dec 0 _); [contradiction|]. assert (B := base_Int_part (- fl (fl (3 / 10) / fl (1 / 10)))).
      assert (IZR (Int_part (- fl (fl (3 / 10) / fl (1 / 10)))) = -3) by (replace (Int_part _) with (-3)%Z by lia; reflexivity). lra.
  - exact E.
Qed.
(** the hypotheses are met by a concrete device: 65/16 by 33/16 with guides of length 1, margins 1/2, step 1/8 *)
Example C104_met : exists e d, two_port (65 / 16) (33 / 16) 1 1 (1 / 2) (1 / 8) (10 :: 15 :: nil)%Z 5 = Ok (e, d) /\
  length64 (65 / 16) /\ length64 (33 / 16) /\ length64 1 /\ length64 (1 / 2) /\ b64 (1 / 8) /\
  robust ((2 * 1 + 65 / 16) / (1 / 8)) /\ robust ((2 * (1 / 2) + 33 / 16) / (1 / 8)) /\ nd_nx e = 68%nat /\ nd_ny e = 54%nat /\
  port_shape_f (65 / 16) (33 / 16) 1 (1 / 2) (1 / 8) 10 15 = (68, 54)%Z.
Proof.
  assert (B16 : forall n, (Z.abs n < 2 ^ 53)%Z -> b64 (IZR n / 16)).
  { intros n Hn. exists n, (-4)%Z. change (powerRZ 2 (-4)) with (/ (2 * (2 * (2 * (2 * 1))))). split; [lra|]. split; [exact Hn|lia]. }
  assert (L1 : length64 (65 / 16)) by (split; [apply (B16 65%Z); reflexivity|lra]). assert (L2 : length64 (33 / 16)) by (split; [apply (B16 33%Z); reflexivity|lra]).
  assert (L3 : length64 1) by (split; [apply (b64_IZR 1); reflexivity|lra]). assert (L4 : length64 (1 / 2)) by (split; [apply (b64_halves 1); reflexivity|lra]).
  assert (L5 : b64 (1 / 8)) by (replace (1 / 8) with (2 / 16) by lra; apply (B16 2%Z); reflexivity).
  assert (V : 0 < / 2 ^ 49 <= / 1024) by (rewrite (pow_IZR 2 49); cbn -[IZR]; lra).
  assert (R1 : robust ((2 * 1 + 65 / 16) / (1 / 8))). { exists 48%Z. replace ((2 * 1 + 65 / 16) / (1 / 8)) with (97 / 2) by lra. lra. }
  assert (R2 : robust ((2 * (1 / 2) + 33 / 16) / (1 / 8))). { exists 24%Z. replace ((2 * (1 / 2) + 33 / 16) / (1 / 8)) with (49 / 2) by lra. lra. }
  assert (E1 : py_int ((2 * 1 + 65 / 16) / (1 / 8)) = 48%Z) by (rewrite py_int_floor by lra; apply Zfloor_imp; cbn -[IZR]; lra).
  assert (E2 : py_int ((33 / 16 + 2 * (1 / 2)) / (1 / 8)) = 24%Z) by (rewrite py_int_floor by lra; apply Zfloor_imp; cbn -[IZR]; lra).
  assert (T : exists e d, two_port (65 / 16) (33 / 16) 1 1 (1 / 2) (1 / 8) (10 :: 15 :: nil)%Z 5 = Ok (e, d)).
  { unfold two_port, npml_at, py_div. cbn [nth_error rbind]. destruct (Req_EM_T (1 / 8) 0); [lra|]. cbn [rbind]. rewrite E1, E2. cbn. eexists. eexists. reflexivity. }
  destruct T as (e & d & T). exists e, d. split; [exact T|]. repeat (split; [assumption|]).
  assert (S := T). unfold two_port, npml_at, py_div in S. cbn [nth_error rbind] in S. destruct (Req_EM_T (1 / 8) 0); [lra|]. cbn [rbind] in S. rewrite E1, E2 in S. apply build_shape in S as [S1 S2].
  assert (HN : nd_nx e = 68%nat) by lia. assert (HM : nd_ny e = 54%nat) by lia. split; [exact HN|]. split; [exact HM|].
  assert (B : 2 ^ 48 = 281474976710656) by (rewrite (pow_IZR 2 48); reflexivity).
  destruct (C104_port_shapes (65 / 16) (33 / 16) 1 (1 / 2) (1 / 8) 10 15 e d L1 L2 L3 L4 L5 ltac:(lra) ltac:(rewrite B; lra) ltac:(rewrite B; lra)) as [[_ A1] [_ A2]].
  { left. exists 1, 5. exact T. }
  specialize (A1 R1). specialize (A2 R2). rewrite HN in A1. rewrite HM in A2. rewrite (surjective_pairing (port_shape_f _ _ _ _ _ _ _)), A1, A2. reflexivity.
Qed.
