(** C103: how far ADAM can move the density. *)
From Coq Require Import Reals Lra Lia List ZArith Arith Bool String Psatz.
From Coquelicot Require Import Coquelicot.
From Verif Require Import Base Linear Spec MCore MSim PCore PSim PEx PropsCore PropsSolve PropsLin PropsNl PropsIter MFilter PFilter PTanh PropsFilter MOpt PDiff PGrad PExOpt PropsGrad POpt PropsOpt PropsOpt2 PropsOpt3.
Import ListNotations.
Local Open Scope R_scope.

(** the largest length of a direction: about 7.3 for the default beta1 = 0.9, beta2 = 0.999 *)
Definition adam_reach (b1 b2 : R) : R := (1 - b1) / sqrt ((1 - b2) * (1 - b1 ^ 2 / b2)).

(** after t updates the square of the first moment is at most [ratio b1 b2 t] times the second *)
Definition ratio (b1 b2 : R) (t : nat) : R := (1 - b1) ^ 2 / (1 - b2) * ((1 - (b1 ^ 2 / b2) ^ t) / (1 - b1 ^ 2 / b2)).

Lemma c_range b1 b2 : 0 < b2 -> b1 ^ 2 < b2 -> 0 <= b1 ^ 2 / b2 < 1.
Proof.
  intros H2 H1. split; [apply Rmult_le_pos; [apply pow2_ge_0|left; apply Rinv_0_lt_compat, H2]|].
  apply (Rmult_lt_reg_r b2); [lra|]; unfold Rdiv; rewrite Rmult_assoc, Rinv_l by lra; lra.
Qed.
Lemma one_minus_pow c t : 0 <= c < 1 -> 0 <= 1 - c ^ t <= 1.
Proof. intro H. assert (0 <= c ^ t) by (apply pow_le; lra). assert (c ^ t <= 1) by (rewrite <- (pow1 t); apply pow_incr; lra). lra. Qed.
Lemma ratio_nonneg b1 b2 t : 0 < b2 < 1 -> b1 ^ 2 < b2 -> 0 <= ratio b1 b2 t.
Proof.
  intros H2 H1. assert (HC := c_range b1 b2 ltac:(lra) H1). assert (HP := one_minus_pow _ t HC). unfold ratio, Rdiv at 1 2.
  apply Rmult_le_pos; apply Rmult_le_pos; try apply pow2_ge_0; try lra; left; apply Rinv_0_lt_compat; lra.
Qed.
Lemma ratio_S b1 b2 t : 0 < b2 < 1 -> b1 ^ 2 < b2 -> ratio b1 b2 (S t) = b1 ^ 2 / b2 * ratio b1 b2 t + (1 - b1) ^ 2 / (1 - b2).
Proof.
  intros H2 H1. assert (HC := c_range b1 b2 ltac:(lra) H1). unfold ratio. set (c := b1 ^ 2 / b2) in *. cbn [pow]. field. lra.
Qed.
Lemma moment_bound b1 b2 m v g t : 0 < b2 < 1 -> b1 ^ 2 < b2 -> 0 <= v -> m ^ 2 <= ratio b1 b2 t * v ->
  0 <= adam_v b2 v g /\ adam_m b1 m g ^ 2 <= ratio b1 b2 (S t) * adam_v b2 v g.
Proof.
  intros H2 H1 Hv H. assert (HC := c_range b1 b2 ltac:(lra) H1). assert (HA := ratio_nonneg b1 b2 t H2 H1). rewrite ratio_S by assumption.
  unfold adam_m, adam_v. assert (G2 := pow2_ge_0 g). split; [apply Rplus_le_le_0_compat; apply Rmult_le_pos; lra|].
  set (A := ratio b1 b2 t) in *. set (c := b1 ^ 2 / b2) in *. assert (Ec : c * b2 = b1 ^ 2) by (unfold c; field; lra).
  set (P := (1 - b1) ^ 2 / (1 - b2)). assert (EP : P * (1 - b2) = (1 - b1) ^ 2) by (unfold P; field; lra).
  assert (HP : 0 <= P) by (unfold P, Rdiv; apply Rmult_le_pos; [apply pow2_ge_0|left; apply Rinv_0_lt_compat; lra]).
  set (X := c * A * (1 - b2) * g ^ 2). set (Y := P * b2 * v).
  assert (HX : 0 <= X) by (unfold X; apply Rmult_le_pos; [apply Rmult_le_pos; [apply Rmult_le_pos|]|]; lra). assert (HY : 0 <= Y) by (unfold Y; apply Rmult_le_pos; [apply Rmult_le_pos|]; lra).
  assert (E1 : (c * A + P) * (b2 * v + (1 - b2) * g ^ 2) = b1 ^ 2 * (A * v) + (X + Y) + ((1 - b1) * g) ^ 2).
  { unfold X, Y. rewrite <- Ec. replace (((1 - b1) * g) ^ 2) with (P * (1 - b2) * g ^ 2) by (rewrite EP; ring). ring. }
  rewrite E1. set (h := (1 - b1) * g) in *.
  assert (E2 : X * Y = b1 ^ 2 * (A * v) * h ^ 2).
  { unfold X, Y. rewrite <- Ec. replace (h ^ 2) with (P * (1 - b2) * g ^ 2) by (unfold h; rewrite EP; ring). ring. }
  assert (E3 : (b1 * m * h) ^ 2 <= X * Y).
  { rewrite E2. replace ((b1 * m * h) ^ 2) with (b1 ^ 2 * m ^ 2 * h ^ 2) by ring. apply Rmult_le_compat_r; [apply pow2_ge_0|]. apply Rmult_le_compat_l; [apply pow2_ge_0|exact H]. }
  assert (E4 : 2 * (b1 * m * h) <= X + Y).
  { apply Rsqr_incr_0_var; [|lra]. unfold Rsqr. assert (Q := pow2_ge_0 (X - Y)). nra. }
  assert (b1 ^ 2 * m ^ 2 <= b1 ^ 2 * (A * v)) by (apply Rmult_le_compat_l; [apply pow2_ge_0|exact H]).
  replace ((b1 * m + h) ^ 2) with (b1 ^ 2 * m ^ 2 + 2 * (b1 * m * h) + h ^ 2) by ring. lra.
Qed.
(** the two corrections of the averages cannot lengthen the direction *)
Lemma correction_bound b1 b2 t : 0 <= b1 < 1 -> 0 < b2 < 1 -> b1 ^ 2 < b2 -> (1 - b2 ^ t) * (1 - (b1 ^ 2 / b2) ^ t) <= (1 - b1 ^ t) ^ 2.
Proof.
  intros Hb H2 H1. set (c := b1 ^ 2 / b2). assert (HC : 0 <= c < 1) by (apply c_range; lra).
  assert (E : (b1 ^ t) ^ 2 = b2 ^ t * c ^ t).
  { rewrite <- Rpow_mult_distr. replace (b2 * c) with (b1 ^ 2) by (unfold c; field; lra). rewrite <- !pow_mult. f_equal. lia. }
  assert (Bp : 0 <= b1 ^ t) by (apply pow_le; lra). assert (Xp : 0 <= b2 ^ t) by (apply pow_le; lra). assert (Yp : 0 <= c ^ t) by (apply pow_le; lra).
  assert (2 * b1 ^ t <= b2 ^ t + c ^ t); [|nra].
  apply Rsqr_incr_0_var; [|lra]. unfold Rsqr. assert (Q := pow2_ge_0 (b2 ^ t - c ^ t)). nra.
Qed.
Lemma step_bound b1 b2 m v i : 0 <= b1 < 1 -> 0 < b2 < 1 -> b1 ^ 2 < b2 -> 0 <= v -> m ^ 2 <= ratio b1 b2 (S i) * v ->
  Rabs (adam_step b1 b2 m v i) <= adam_reach b1 b2.
Proof.
  intros Hb H2 H1 Hv H. unfold adam_step. rewrite Nat.add_1_r. set (t := S i) in *. assert (HC := c_range b1 b2 ltac:(lra) H1). assert (K := correction_bound b1 b2 t Hb H2 H1).
  assert (Pow : forall b, 0 <= b < 1 -> 0 < 1 - b ^ t).
  { intros b B. unfold t. cbn [pow]. assert (Q := one_minus_pow b i B). assert (0 <= b ^ i) by (apply pow_le; lra). nra. }
  assert (P1 := Pow b1 Hb). assert (P2 := Pow b2 ltac:(lra)). set (c := b1 ^ 2 / b2) in *.
  set (q := (1 - b2) * (1 - c)). assert (Hq : 0 < q) by (apply Rmult_lt_0_compat; lra). assert (Sq := sqrt_lt_R0 q Hq).
  set (V := v / (1 - b2 ^ t)). set (M := m / (1 - b1 ^ t)).
  assert (HV : 0 <= V) by (unfold V, Rdiv; apply Rmult_le_pos; [exact Hv|left; apply Rinv_0_lt_compat, P2]).
  assert (HM : M ^ 2 * q <= (1 - b1) ^ 2 * V).
  { apply (Rmult_le_reg_r ((1 - b1 ^ t) ^ 2)); [apply pow_lt, P1|].
    replace (M ^ 2 * q * (1 - b1 ^ t) ^ 2) with (m ^ 2 * q) by (unfold M; field; lra).
    apply Rle_trans with (ratio b1 b2 t * v * q); [apply Rmult_le_compat_r; [lra|exact H]|].
    replace (ratio b1 b2 t * v * q) with ((1 - b1) ^ 2 * V * ((1 - b2 ^ t) * (1 - c ^ t))) by (unfold ratio, V, q; fold c; field; lra).
    apply Rmult_le_compat_l; [apply Rmult_le_pos; [apply pow2_ge_0|exact HV]|exact K]. }
  assert (HMV : Rabs M * sqrt q <= (1 - b1) * sqrt V).
  { apply Rsqr_incr_0_var; [|apply Rmult_le_pos; [lra|apply sqrt_pos]]. rewrite !Rsqr_mult, Rsqr_sqrt, Rsqr_sqrt by lra. rewrite <- Rsqr_abs. unfold Rsqr. lra. }
  assert (E8 : 0 < 1 / 10 ^ 8) by (apply Rdiv_lt_0_compat; [lra|apply pow_lt; lra]). set (eps := 1 / 10 ^ 8) in *. assert (SV := sqrt_pos V).
  unfold Rdiv at 1. rewrite Rabs_mult, (Rabs_right (/ (sqrt V + eps))) by (apply Rle_ge; left; apply Rinv_0_lt_compat; lra).
  apply (Rmult_le_reg_r (sqrt V + eps)); [lra|]. rewrite Rmult_assoc, Rinv_l, Rmult_1_r by lra. unfold adam_reach. fold c q.
  apply (Rmult_le_reg_r (sqrt q)); [exact Sq|]. eapply Rle_trans; [exact HMV|].
  replace ((1 - b1) / sqrt q * (sqrt V + eps) * sqrt q) with ((1 - b1) * (sqrt V + eps)) by (field; lra).
  apply Rmult_le_compat_l; lra.
Qed.
Lemma clip_move x d : 0 <= x <= 1 -> Rabs (clip01 (x + d) - x) <= Rabs d /\ 0 <= clip01 (x + d) <= 1.
Proof.
  intro H. unfold clip01. destruct (Rlt_dec (x + d) 0).
  - destruct (Rlt_dec 1 0); [lra|]. split; [|lra]. apply Rabs_le_between. assert (A := Rabs_left d ltac:(lra)). lra.
  - destruct (Rlt_dec 1 (x + d)); (split; [|lra]).
    + apply Rabs_le_between. assert (A := Rabs_right d ltac:(lra)). lra.
    + replace (x + d - x) with d by ring. lra.
Qed.

Lemma adam_moves e step b1 b2 (Hs : 0 <= step) (Hb : 0 <= b1 < 1) (H2 : 0 < b2 < 1) (H1 : b1 ^ 2 < b2) n : forall i m v o s o' s' r rho,
  (forall k, 0 <= v k /\ m k ^ 2 <= ratio b1 b2 i * v k) ->
  s_rho s = Val rho -> run_ADAM e step b1 b2 n i m v (o, s) = ((o', s'), r) ->
  exists rho', s_rho s' = Val rho' /\ forall k, 0 <= rho k <= 1 -> 0 <= rho' k <= 1 /\ Rabs (rho' k - rho k) <= INR n * (Rabs (o_design o k) * step * adam_reach b1 b2).
Proof.
  assert (HB : 0 < adam_reach b1 b2).
  { assert (HC := c_range b1 b2 ltac:(lra) H1). unfold adam_reach. apply Rdiv_lt_0_compat; [lra|]. apply sqrt_lt_R0, Rmult_lt_0_compat; lra. }
  assert (HD : forall (o : opt) k, 0 <= Rabs (o_design o k) * step * adam_reach b1 b2) by (intros o k; apply Rmult_le_pos; [apply Rmult_le_pos; [apply Rabs_pos|exact Hs]|lra]).
  induction n as [|n IH]; intros i m v o s o' s' r rho Hm Hr H.
  - cbn [run_ADAM] in H. unfold ret in H. injection H as <- <- <-. exists rho. split; [exact Hr|]. intros k H01. split; [exact H01|].
    unfold Rminus. rewrite Rplus_opp_r, Rabs_R0. cbn [INR]. lra.
  - rewrite run_ADAM_step in H. unfold bind in H. destruct (eval_step e (o, s)) as [[o1 s1] [g|x]] eqn:E1; assert (F1 := E1); apply eval_step_frame in F1 as (C1 & S1).
    all: destruct S1 as [[w S1] _]; assert (Hr1 : s_rho s1 = Val rho) by (unfold same_problem in S1; cbn in S1; intuition congruence); clear S1.
    all: assert (Ed : o_design o1 = o_design o) by (unfold cfg in C1; intuition congruence).
    2: { injection H as <- <- <-. exists rho. split; [exact Hr1|]. intros k H01. split; [exact H01|].
         unfold Rminus. rewrite Rplus_opp_r, Rabs_R0. apply Rmult_le_pos; [apply pos_INR|apply HD]. }
    destruct (update_rho _ step (o1, s1)) as [[o2 s2] r2] eqn:E2. apply update_rho_spec in E2 as [(-> & rho1 & Hr2 & E2)|((x & ->) & E2)]; injection E2 as -> ->.
    2: { injection H as <- <- <-. exists rho. split; [exact Hr1|]. intros k H01. split; [exact H01|].
         unfold Rminus. rewrite Rplus_opp_r, Rabs_R0. apply Rmult_le_pos; [apply pos_INR|apply HD]. }
    rewrite Hr1 in Hr2. injection Hr2 as <-.
    set (d := fun k => adam_step b1 b2 (adam_m b1 (m k) (g k)) (adam_v b2 (v k) (g k)) i) in *.
    assert (Hd : forall k, Rabs (d k) <= adam_reach b1 b2) by (intro k; destruct (Hm k) as [Hv0 Hm0]; destruct (moment_bound b1 b2 (m k) (v k) (g k) i H2 H1 Hv0 Hm0) as [Q1 Q2]; apply step_bound; assumption).
    assert (HC : forall k, 0 <= rho k <= 1 -> Rabs (clip01 (rho k + o_design o1 k * step * d k) - rho k) <= Rabs (o_design o k) * step * adam_reach b1 b2 /\ 0 <= clip01 (rho k + o_design o1 k * step * d k) <= 1).
    { intros k H01. destruct (clip_move (rho k) (o_design o1 k * step * d k) H01) as [A B]. split; [|exact B]. eapply Rle_trans; [exact A|].
      rewrite !Rabs_mult, (Rabs_right step), Ed by lra. apply Rmult_le_compat_l; [apply Rmult_le_pos; [apply Rabs_pos|exact Hs]|apply Hd]. }
    eapply IH in H; [|intro k; apply moment_bound; auto; apply Hm|reflexivity].
    destruct H as (rho' & Hr' & H). exists rho'. split; [exact Hr'|]. intros k H01. destruct (HC k H01) as [HC1 HC2]. destruct (H k HC2) as [A B]. split; [exact A|].
    rewrite S_INR, Rmult_plus_distr_r, Rmult_1_l.
    replace (rho' k - rho k) with ((rho' k - clip01 (rho k + o_design o1 k * step * d k)) + (clip01 (rho k + o_design o1 k * step * d k) - rho k)) by ring.
    eapply Rle_trans; [apply Rabs_triang|]. apply Rplus_le_compat; [|exact HC1]. replace (o_design (upd_current false o1)) with (o_design o) in B by (symmetry; exact Ed). exact B.
Qed.

(** ** C103: theorems *)
(** However the gradients behave, and even when an exception ends the run early, a run of n ADAM iterations moves no
    density by more than n * step_size * (1 - beta1) / sqrt ((1 - beta2) (1 - beta1^2 / beta2)), and keeps it in [0, 1]. *)
Theorem C103_run_stays_near : forall e n step b1 b2 o s o' s' r rho,
  0 <= step -> 0 <= b1 < 1 -> 0 < b2 < 1 -> b1 ^ 2 < b2 ->
  s_rho s = Val rho ->
  run e MADAM n step b1 b2 (o, s) = ((o', s'), r) ->
  exists rho', s_rho s' = Val rho' /\ forall k, 0 <= rho k <= 1 -> 0 <= rho' k <= 1 /\
    Rabs (rho' k - rho k) <= INR n * (Rabs (o_design o k) * step * ((1 - b1) / sqrt ((1 - b2) * (1 - b1 ^ 2 / b2)))).
Proof.
  intros e n step b1 b2 o s o' s' r rho Hs Hb H2 H1 Hr H. unfold run in H. cbn [fst snd] in H. rewrite Hr in H.
  apply (adam_moves e step b1 b2 Hs Hb H2 H1 n) with (rho := rho) in H; [exact H| |exact Hr].
  intro k. split; [lra|]. rewrite Rmult_0_r. cbn [pow]. lra.
Qed.
(** with the default parameters (beta1 = 0.9, beta2 = 0.999): at most 7.3 step sizes per iteration *)
Theorem C103_default_parameters : forall e n step o s o' s' r rho,
  0 <= step -> s_rho s = Val rho -> (forall k, o_design o k = 0 \/ o_design o k = 1) ->
  run e MADAM n step (9 / 10) (999 / 1000) (o, s) = ((o', s'), r) ->
  exists rho', s_rho s' = Val rho' /\ forall k, 0 <= rho k <= 1 -> 0 <= rho' k <= 1 /\ Rabs (rho' k - rho k) <= INR n * (73 / 10 * step) /\
    (o_design o k = 0 -> rho' k = rho k).
Proof.
  intros e n step o s o' s' r rho Hs Hr HD H.
  destruct (C103_run_stays_near e n step (9 / 10) (999 / 1000) o s o' s' r rho Hs ltac:(lra) ltac:(lra) ltac:(lra) Hr H) as (rho' & Hr' & B).
  exists rho'. split; [exact Hr'|]. intros k H01. destruct (B k H01) as [A C]. split; [exact A|].
  set (B0 := (1 - 9 / 10) / sqrt ((1 - 999 / 1000) * (1 - (9 / 10) ^ 2 / (999 / 1000)))) in *.
  assert (HB0 : 0 <= B0 <= 73 / 10).
  { unfold B0. set (q := (1 - 999 / 1000) * (1 - (9 / 10) ^ 2 / (999 / 1000))). assert (Hq : (10 / 730) ^ 2 <= q) by (unfold q; lra).
    assert (S1 : 10 / 730 <= sqrt q). { rewrite <- (sqrt_pow2 (10 / 730)) by lra. apply sqrt_le_1_alt, Hq. }
    assert (S2 : / sqrt q <= / (10 / 730)) by (apply Rinv_le_contravar; lra). assert (0 < / sqrt q) by (apply Rinv_0_lt_compat; lra). unfold Rdiv at 1 3. nra. }
  assert (HN := pos_INR n). split.
  - eapply Rle_trans; [exact C|]. apply Rmult_le_compat_l; [exact HN|]. rewrite (Rmult_comm (73 / 10)).
    destruct (HD k) as [E|E]; rewrite E; [rewrite Rabs_R0|rewrite Rabs_R1]; [nra|]. rewrite Rmult_1_l. apply Rmult_le_compat_l; lra.
  - intro E. rewrite E, Rabs_R0, !Rmult_0_l, Rmult_0_r in C. assert (Q := Rabs_pos (rho' k - rho k)).
    destruct (Req_dec (rho' k - rho k) 0) as [Z|Z]; [lra|]. apply Rabs_no_R0 in Z. lra.
Qed.
(** The first iteration follows the sign of the gradient and moves by less than one step size. *)
Theorem C103_first_step : forall e step b1 b2 o s o' s' rho g st1,
  0 <= step -> 0 <= b1 < 1 -> 0 <= b2 < 1 -> s_rho s = Val rho -> (forall k, 0 <= o_design o k <= 1) ->
  eval_step e (upd_current false o, s) = (st1, Ok g) ->
  run e MADAM 1 step b1 b2 (o, s) = ((o', s'), Ok tt) ->
  exists rho', s_rho s' = Val rho' /\ forall k, 0 <= rho k <= 1 -> Rabs (rho' k - rho k) <= step /\ 0 <= (rho' k - rho k) * g k.
Proof.
  intros e step b1 b2 o s o' s' rho g [o1 s1] Hs H1 H2 Hr HD HE H. unfold run in H. cbn [fst snd] in H. rewrite Hr in H.
  rewrite run_ADAM_step in H. unfold bind in H. rewrite HE in H. apply eval_step_frame in HE as (C1 & [[w S1] _]).
  assert (Hr1 : s_rho s1 = Val rho) by (unfold same_problem in S1; cbn in S1; intuition congruence).
  assert (Ed : o_design o1 = o_design o) by (unfold cfg in C1; cbn in C1; intuition congruence).
  destruct (update_rho _ step (o1, s1)) as [[o2 s2] r2] eqn:E2. apply update_rho_spec in E2 as [(-> & rho1 & Hr2 & E2)|((x & ->) & E2)]; [|discriminate].
  injection E2 as -> ->. cbn [run_ADAM] in H. unfold ret in H. injection H as <- <-. rewrite Hr1 in Hr2. injection Hr2 as <-.
  eexists. split; [reflexivity|]. intros k H01.
  assert (ES : adam_step b1 b2 (adam_m b1 0 (g k)) (adam_v b2 0 (g k)) 0 = g k / (Rabs (g k) + 1 / 10 ^ 8)).
  { unfold adam_step, adam_m, adam_v. cbn [Nat.add]. rewrite !pow_1, !Rmult_0_r, !Rplus_0_l.
    replace ((1 - b1) * g k / (1 - b1)) with (g k) by (field; lra). replace ((1 - b2) * g k ^ 2 / (1 - b2)) with (Rsqr (g k)) by (unfold Rsqr; field; lra).
    rewrite sqrt_Rsqr_abs. reflexivity. }
  cbv beta. rewrite ES, Ed. assert (E8 : 0 < 1 / 10 ^ 8) by (apply Rdiv_lt_0_compat; [lra|apply pow_lt; lra]). set (eps := 1 / 10 ^ 8) in *.
  assert (GP := Rabs_pos (g k)). set (D := Rabs (g k) + eps). assert (HDD : 0 < D) by (unfold D; lra). assert (ID := Rinv_0_lt_compat D HDD).
  set (d := g k / D).
  assert (Hd : Rabs d <= 1).
  { unfold d, Rdiv. rewrite Rabs_mult, (Rabs_right (/ D)) by lra. apply (Rmult_le_reg_r D); [exact HDD|]. rewrite Rmult_assoc, Rinv_l, Rmult_1_r, Rmult_1_l by lra. unfold D. lra. }
  assert (Hg : g k = D * d) by (unfold d; field; lra).
  assert (Hq : 0 <= o_design o k * step <= step) by (specialize (HD k); split; [apply Rmult_le_pos; lra|]; rewrite <- (Rmult_1_l step) at 2; apply Rmult_le_compat_r; lra). set (q := o_design o k * step) in *.
  destruct (clip_move (rho k) (q * d) H01) as [A _]. split.
  - eapply Rle_trans; [exact A|]. rewrite Rabs_mult, (Rabs_right q) by lra. assert (HA := Rabs_pos d). nra.
  - rewrite Hg. assert (0 <= (clip01 (rho k + q * d) - rho k) * d); [|nra].
    unfold clip01. destruct (Rlt_dec (rho k + q * d) 0) as [L|L].
    + destruct (Rlt_dec 1 0); [lra|]. assert (d < 0) by (destruct (Rlt_dec d 0); [assumption|exfalso; assert (0 <= q * d) by (apply Rmult_le_pos; lra); lra]).
      replace ((0 - rho k) * d) with (rho k * - d) by ring. apply Rmult_le_pos; lra.
    + destruct (Rlt_dec 1 (rho k + q * d)).
      * assert (0 <= d) by (destruct (Rle_dec 0 d); [assumption|exfalso; assert (0 <= q * - d) by (apply Rmult_le_pos; lra); lra]). apply Rmult_le_pos; lra.
      * replace ((rho k + q * d - rho k) * d) with (q * d ^ 2) by ring. apply Rmult_le_pos; [lra|apply pow2_ge_0].
Qed.
(** the hypotheses are met: runs of any length of the 5x4 example *)
Example C103_met : exists o s rho, s_rho s = Val rho /\ (forall k, (k < s_M s)%nat -> 0 <= rho k <= 1) /\ (forall k, o_design o k = 0 \/ o_design o k = 1) /\
  (exists k, (k < s_M s)%nat /\ o_design o k = 1) /\
  forall e step n, exists o' s' st1 g, run e MADAM n step (9 / 10) (999 / 1000) (o, s) = ((o', s'), Ok tt) /\ eval_step e (upd_current false o, s) = (st1, Ok g).
Proof.
  destruct run_example as (s0 & ob & o & H0 & HO & HOpt & HR & (rho & Hr & Hv) & _ & HM & _). exists o, (ex_run_sim o s0), rho.
  split; [exact Hr|]. split; [intros k Hk; apply Hv, Hk|]. injection HOpt as <-.
  split; [intro k; cbn; unfold ex_design; destruct (Nat.eqb k 9); [auto|]; destruct (Nat.eqb k 10); auto|].
  split; [exists 9%nat; rewrite HM; split; [lia|reflexivity]|].
  intros e step n.
  destruct (run_succeeds e MADAM n step (9 / 10) (999 / 1000) _ _ _ _ (or_intror eq_refl) HR) as (o1 & s1 & E1 & R1).
  destruct (run_succeeds e MADAM 1 step (9 / 10) (999 / 1000) _ _ _ _ (or_intror eq_refl) HR) as (o2 & s2 & E2 & R2).
  unfold run in E2. cbn [fst snd] in E2. rewrite Hr, run_ADAM_step in E2. unfold bind at 1 in E2.
  destruct (eval_step e _) as [st1 [g|x]] eqn:E3; [|discriminate].
  exists o1, s1, st1, g. split; [exact E1|reflexivity].
Qed.
