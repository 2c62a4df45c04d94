(** C108: densities and permittivities in floating point. *)
From Coq Require Import Reals Lra Lia List ZArith Psatz Permutation.
From Flocq Require Import Core Plus_error Relative.
From Coquelicot Require Import Coquelicot.
From Verif Require Import Base MCore MSim MFilter MOpt MFloat PTanh PropsFloat MFloatFilter.
Local Open Scope R_scope.

(** ** Specification *)
(** what is asked of the C library's tanh: floats go to floats, it does not decrease, it is odd, and
    it is positive on positive numbers *)
Definition tanh_like (th : R -> R) : Prop :=
  (forall x, b64 x -> b64 (th x)) /\
  (forall x y, b64 x -> b64 y -> x <= y -> th x <= th y) /\
  (forall x, b64 x -> th (- x) = - th x) /\
  (forall x, b64 x -> 0 < x -> 0 < th x).
(** parameters of the projection *)
Definition projection_parameters (eta beta : R) : Prop := b64 eta /\ 0 <= eta <= 1 /\ b64 beta /\ powerRZ 2 (-1000) <= beta.
(** a largest permittivity *)
Definition permittivity64 (eps_m : R) : Prop := b64 eps_m /\ 1 <= eps_m <= 2 ^ 53.
(** floats between 0 and 1 *)
Definition density (x : R) : Prop := b64 x /\ 0 <= x <= 1.
(** a filter: stored weights are nonnegative floats *)
Definition weights (row : csr_row) : Prop := List.Forall (fun cw => b64 (snd cw) /\ 0 <= snd cw) row.
(** the row of a pixel which is not filtered: weight 1 on the pixel, once, and 0 elsewhere *)
Definition unfiltered (k : nat) (row : csr_row) : Prop :=
  exists a b, row = (a ++ (k, 1) :: b)%list /\ List.Forall (fun cw => snd cw = 0) a /\ List.Forall (fun cw => snd cw = 0) b.

(** ** Proofs *)
Lemma fl_0 : fl 0 = 0. Proof. apply fl_id. apply (b64_IZR 0); reflexivity. Qed.
Lemma fl_1 : fl 1 = 1. Proof. apply fl_id. apply (b64_IZR 1); reflexivity. Qed.
Lemma b64_0 : b64 0. Proof. apply (b64_IZR 0); reflexivity. Qed.
Lemma b64_1 : b64 1. Proof. apply (b64_IZR 1); reflexivity. Qed.
Lemma fl_opp x : fl (- x) = - fl x. Proof. apply round_NE_opp. Qed.
Lemma b64_opp x : b64 x -> b64 (- x).
Proof. intros (m & e & -> & Hm & He). exists (- m)%Z, e. rewrite opp_IZR. split; [ring|]. split; [rewrite Z.abs_opp; exact Hm|exact He]. Qed.
Lemma b64_pow e : (-1074 <= e)%Z -> b64 (powerRZ 2 e).
Proof. intro H. exists 1%Z, e. split; [ring|]. split; [reflexivity|exact H]. Qed.
Lemma fl_ge a x : b64 a -> a <= x -> a <= fl x.
Proof. intros Ha H. rewrite <- (fl_id a Ha). apply fl_mono, H. Qed.
Lemma fl_le a x : b64 a -> x <= a -> fl x <= a.
Proof. intros Ha H. rewrite <- (fl_id a Ha). apply fl_mono, H. Qed.
Lemma th_0 th : tanh_like th -> th 0 = 0.
Proof. intros (_ & _ & H & _). specialize (H 0 b64_0). rewrite Ropp_0 in H. lra. Qed.
Lemma th_nonneg th x : tanh_like th -> b64 x -> 0 <= x -> 0 <= th x.
Proof. intros H Hx Hp. rewrite <- (th_0 th H). apply H; [apply b64_0|exact Hx|exact Hp]. Qed.

Section Projection.
Variables (th : R -> R) (eta beta : R).
Hypothesis T : tanh_like th.
Hypothesis P : projection_parameters eta beta.
Let a := th (fl (beta * eta)).
Let g x := th (fl (beta * fl (x - eta))).

Lemma beta_pos : 0 < beta.
Proof. destruct P as (_ & _ & _ & H). eapply Rlt_le_trans; [apply powerRZ_lt|exact H]; lra. Qed.
Lemma g_b64 x : b64 (g x). Proof. apply T, fl_b64. Qed.
Lemma a_b64 : b64 a. Proof. apply T, fl_b64. Qed.
Lemma g_mono x y : x <= y -> g x <= g y.
Proof.
  intro H. apply T; [apply fl_b64..|]. apply fl_mono. apply Rmult_le_compat_l; [apply Rlt_le, beta_pos|]. apply fl_mono. lra.
Qed.
Lemma g_0 : g 0 = - a.
Proof.
  unfold g, a. replace (0 - eta) with (- eta) by ring. rewrite fl_opp, (fl_id eta) by apply P.
  rewrite <- Ropp_mult_distr_r, fl_opp. apply T. apply fl_b64.
Qed.
Lemma big_arg t : / 2 <= t -> 0 < fl (beta * t).
Proof.
  intro H. eapply Rlt_le_trans; [apply (powerRZ_lt 2 (-1001)); lra|]. apply fl_ge; [apply b64_pow; lia|].
  destruct P as (_ & _ & _ & Hb). replace (powerRZ 2 (-1001)) with (powerRZ 2 (-1000) * / 2).
  - assert (0 < powerRZ 2 (-1000)) by (apply powerRZ_lt; lra). generalize dependent (powerRZ 2 (-1000)). intros. nra.
  - replace (-1001)%Z with (-1000 + -1)%Z by reflexivity. rewrite (powerRZ_add 2 (-1000) (-1)) by lra. f_equal. change (powerRZ 2 (-1)) with (/ (2 * 1)). f_equal. ring.
Qed.
Lemma a_nonneg : 0 <= a.
Proof. apply (th_nonneg th); [exact T|apply fl_b64|]. apply fl_nonneg. apply Rmult_le_pos; [apply Rlt_le, beta_pos|apply P]. Qed.
Lemma g1_nonneg : 0 <= g 1.
Proof.
  apply (th_nonneg th); [exact T|apply fl_b64|]. apply fl_nonneg. apply Rmult_le_pos; [apply Rlt_le, beta_pos|].
  apply fl_nonneg. destruct P as (_ & H & _). lra.
Qed.
Lemma den_pos : 0 < fl (a + g 1).
Proof.
  pose proof a_nonneg as Ha. pose proof g1_nonneg as Hg. destruct (Rle_lt_dec (/ 2) eta) as [E|E].
  - assert (0 < a) by (apply T; [apply fl_b64|apply big_arg, E]).
    eapply Rlt_le_trans; [exact H|]. apply fl_ge; [apply a_b64|lra].
  - assert (0 < g 1). { apply T; [apply fl_b64|]. apply big_arg. apply fl_ge; [apply b64_half|lra]. }
    eapply Rlt_le_trans; [exact H|]. apply fl_ge; [apply g_b64|lra].
Qed.
Lemma proj_unfold x : rhot2rhob_f th x eta beta = fl (fl (a + g x) / fl (a + g 1)).
Proof. reflexivity. Qed.
Lemma proj_mono x y : x <= y -> rhot2rhob_f th x eta beta <= rhot2rhob_f th y eta beta.
Proof.
  intro H. rewrite !proj_unfold. apply fl_mono. unfold Rdiv. apply Rmult_le_compat_r; [apply Rlt_le, Rinv_0_lt_compat, den_pos|].
  apply fl_mono. pose proof (g_mono x y H). lra.
Qed.
Lemma proj_0 : rhot2rhob_f th 0 eta beta = 0.
Proof. rewrite proj_unfold, g_0, Rplus_opp_r, fl_0. unfold Rdiv. rewrite Rmult_0_l. apply fl_0. Qed.
Lemma proj_1 : rhot2rhob_f th 1 eta beta = 1.
Proof. rewrite proj_unfold. pose proof den_pos. unfold Rdiv. rewrite Rinv_r by lra. apply fl_1. Qed.
End Projection.

Lemma minus1_exact eps : permittivity64 eps -> fl (eps - 1) = eps - 1.
Proof.
  intros (H & H1 & H2). apply fl_id. destruct H as (m & e & -> & Hm & He).
  assert (P : 0 < powerRZ 2 e) by (apply powerRZ_lt; lra).
  destruct (Z_le_gt_dec e 0) as [L|G].
  - (* eps - 1 = (m - 2^(-e)) * 2^e, 0 <= it < m *)
    assert (E1 : IZR (2 ^ (- e)) * powerRZ 2 e = 1).
    { rewrite (IZR_Zpower radix2) by lia. rewrite powerRZ_bpow, <- bpow_plus. replace (- e + e)%Z with 0%Z by lia. reflexivity. }
    exists (m - 2 ^ (- e))%Z, e. rewrite minus_IZR. split; [rewrite Rmult_minus_distr_r, E1; ring|]. split; [|exact He].
    assert (2 ^ (- e) <= m)%Z. { apply le_IZR. apply Rmult_le_reg_r with (powerRZ 2 e); [exact P|]. rewrite E1. exact H1. }
    assert (0 < 2 ^ (- e))%Z by (apply Z.pow_pos_nonneg; lia). lia.
  - (* an integer *)
    assert (E1 : IZR m * powerRZ 2 e = IZR (m * 2 ^ e)).
    { rewrite mult_IZR, (IZR_Zpower radix2) by lia. rewrite powerRZ_bpow. reflexivity. }
    rewrite E1 in *. replace (2 ^ 53) with (IZR (2 ^ 53)) in H2 by (rewrite (pow_IZR 2 53); reflexivity).
    apply le_IZR in H1, H2. change 1 with (IZR 1). rewrite <- minus_IZR. apply b64_IZR. lia.
Qed.

Lemma fold_mono row rho rho' : weights row -> (forall j, rho j <= rho' j) -> forall s s', s <= s' ->
  fold_left (fun acc cw => fl (acc + fl (snd cw * rho (fst cw)))) row s <=
  fold_left (fun acc cw => fl (acc + fl (snd cw * rho' (fst cw)))) row s'.
Proof.
  intros Hw Hr. induction Hw as [|[c w] t [_ Hp] Ht IH]; intros s s' Hs; cbn [fold_left fst snd]; [exact Hs|].
  apply IH. apply fl_mono. apply Rplus_le_compat; [exact Hs|]. apply fl_mono. apply Rmult_le_compat_l; [exact Hp|apply Hr].
Qed.
Lemma fold_zero row (rho : nat -> R) : (forall j, rho j = 0) ->
  fold_left (fun acc cw => fl (acc + fl (snd cw * rho (fst cw)))) row 0 = 0.
Proof.
  intro H. induction row as [|[c w] t IH]; cbn [fold_left fst snd]; [reflexivity|].
  rewrite H, Rmult_0_r, fl_0, Rplus_0_l, fl_0. exact IH.
Qed.
Lemma fold_zero_weights row (rho : nat -> R) s : List.Forall (fun cw => snd cw = 0) row -> b64 s ->
  fold_left (fun acc cw => fl (acc + fl (snd cw * rho (fst cw)))) row s = s.
Proof.
  intros H Hs. induction H as [|[c w] t Hw Ht IH]; cbn [fold_left fst snd]; [reflexivity|].
  cbn in Hw. rewrite Hw, Rmult_0_l, fl_0, Rplus_0_r, (fl_id s Hs). exact IH.
Qed.
Lemma unfiltered_dot k W rho : unfiltered k (W k) -> b64 (rho k) -> rho2rhot_f W rho k = rho k.
Proof.
  intros (a & b & E & Ha & Hb) Hr. unfold rho2rhot_f. rewrite E, fold_left_app, (fold_zero_weights a _ 0 Ha b64_0).
  cbn [fold_left fst snd]. rewrite Rmult_1_l, (fl_id _ Hr), Rplus_0_l, (fl_id _ Hr). apply fold_zero_weights; assumption.
Qed.
Lemma eps_mono eps_m x y : permittivity64 eps_m -> x <= y -> rhob2eps_f x eps_m <= rhob2eps_f y eps_m.
Proof.
  intros P H. unfold rhob2eps_f. apply fl_mono, Rplus_le_compat_l, fl_mono. rewrite minus1_exact by exact P.
  apply Rmult_le_compat_r; [destruct P; lra|exact H].
Qed.
Lemma eps_at_0 eps_m : rhob2eps_f 0 eps_m = 1.
Proof. unfold rhob2eps_f. rewrite Rmult_0_l, fl_0, Rplus_0_r. apply fl_1. Qed.
Lemma eps_at_1 eps_m : permittivity64 eps_m -> rhob2eps_f 1 eps_m = eps_m.
Proof.
  intro P. unfold rhob2eps_f. rewrite Rmult_1_l. rewrite (fl_id (fl (eps_m - 1))) by apply fl_b64. rewrite minus1_exact by exact P.
  replace (1 + (eps_m - 1)) with eps_m by ring. apply fl_id, P.
Qed.

(** the projection does not decrease, sends 0 to exactly 0 and 1 to exactly 1, and so sends [0, 1]
    into [0, 1], in floating point *)
Theorem C108_projection : forall th eta beta, tanh_like th -> projection_parameters eta beta ->
  (forall x y, x <= y -> rhot2rhob_f th x eta beta <= rhot2rhob_f th y eta beta) /\
  rhot2rhob_f th 0 eta beta = 0 /\ rhot2rhob_f th 1 eta beta = 1 /\
  (forall x, density x -> density (rhot2rhob_f th x eta beta)).
Proof.
  intros th eta beta T P.
  pose proof (proj_mono th eta beta T P) as M. pose proof (proj_0 th eta beta T P) as E0. pose proof (proj_1 th eta beta T P) as E1.
  split; [exact M|]. split; [exact E0|]. split; [exact E1|]. intros x (_ & H0 & H1). split; [apply fl_b64|].
  split; [rewrite <- E0|rewrite <- E1]; apply M; assumption.
Qed.

(** the permittivity of a projected density is between 1 and eps_m, and exactly 1 and eps_m at 0 and 1 *)
Theorem C108_permittivity : forall eps_m, permittivity64 eps_m ->
  (forall x y, x <= y -> rhob2eps_f x eps_m <= rhob2eps_f y eps_m) /\
  rhob2eps_f 0 eps_m = 1 /\ rhob2eps_f 1 eps_m = eps_m /\
  (forall x, density x -> b64 (rhob2eps_f x eps_m) /\ 1 <= rhob2eps_f x eps_m <= eps_m).
Proof.
  intros eps_m P. pose proof (eps_mono eps_m) as M. pose proof (eps_at_1 eps_m P) as E1. pose proof (eps_at_0 eps_m) as E0.
  split; [intros x y; apply M, P|]. split; [exact E0|]. split; [exact E1|].
  intros x (_ & H0 & H1). split; [apply fl_b64|]. 
  pose proof (M 0 x P H0) as M0. pose proof (M x 1 P H1) as M1. rewrite E0 in M0. rewrite E1 in M1. split; assumption.
Qed.

(** whatever the (nonnegative) filter: more density never lowers a permittivity, no density is
    permittivity exactly 1, and no density gives less than 1 or more than full density does *)
Theorem C108_density_to_permittivity : forall th eta beta eps_m W k, tanh_like th -> projection_parameters eta beta -> permittivity64 eps_m -> weights (W k) ->
  (forall rho rho', (forall j, rho j <= rho' j) -> rho2eps_f th rho eps_m W eta beta k <= rho2eps_f th rho' eps_m W eta beta k) /\
  (forall rho, (forall j, rho j = 0) -> rho2eps_f th rho eps_m W eta beta k = 1) /\
  (forall rho, (forall j, density (rho j)) -> 1 <= rho2eps_f th rho eps_m W eta beta k <= rho2eps_f th (fun _ => 1) eps_m W eta beta k) /\
  (rho2rhot_f W (fun _ => 1) k <= 1 -> rho2eps_f th (fun _ => 1) eps_m W eta beta k <= eps_m) /\
  (rho2rhot_f W (fun _ => 1) k = 1 -> rho2eps_f th (fun _ => 1) eps_m W eta beta k = eps_m).
Proof.
  intros th eta beta eps_m W k T P Q Hw.
  assert (M : forall rho rho', (forall j, rho j <= rho' j) -> rho2eps_f th rho eps_m W eta beta k <= rho2eps_f th rho' eps_m W eta beta k).
  { intros rho rho' H. apply eps_mono; [exact Q|]. apply proj_mono; [exact T|exact P|]. apply fold_mono; [exact Hw|exact H|apply Rle_refl]. }
  assert (Z : forall rho, (forall j, rho j = 0) -> rho2eps_f th rho eps_m W eta beta k = 1).
  { intros rho H. unfold rho2eps_f, rho2rhot_f. rewrite fold_zero by exact H. rewrite (proj_0 th eta beta T P). apply eps_at_0. }
  split; [exact M|]. split; [exact Z|]. split; [|split].
  - intros rho H. rewrite <- (Z (fun _ => 0) ltac:(reflexivity)) at 1. split; apply M; intro j; apply H.
  - intro H. unfold rho2eps_f. pose proof (eps_mono eps_m _ _ Q (proj_mono th eta beta T P _ _ H)) as K.
    rewrite (proj_1 th eta beta T P), (eps_at_1 eps_m Q) in K. exact K.
  - intro H. unfold rho2eps_f. rewrite H, (proj_1 th eta beta T P). apply eps_at_1, Q.
Qed.

(** a pixel which is not filtered: its permittivity depends on its own density only, and runs from
    exactly 1 to exactly eps_m *)
Theorem C108_unfiltered_pixels : forall th eta beta eps_m W k, tanh_like th -> projection_parameters eta beta -> permittivity64 eps_m -> unfiltered k (W k) ->
  (forall rho, density (rho k) -> 1 <= rho2eps_f th rho eps_m W eta beta k <= eps_m) /\
  (forall rho, rho k = 0 -> rho2eps_f th rho eps_m W eta beta k = 1) /\
  (forall rho, rho k = 1 -> rho2eps_f th rho eps_m W eta beta k = eps_m) /\
  (forall rho rho', b64 (rho k) -> rho' k = rho k -> rho2eps_f th rho' eps_m W eta beta k = rho2eps_f th rho eps_m W eta beta k).
Proof.
  intros th eta beta eps_m W k T P Q U. split; [|split; [|split]].
  - intros rho D. unfold rho2eps_f. rewrite (unfiltered_dot k W rho U) by apply D.
    apply (C108_permittivity eps_m Q). apply (C108_projection th eta beta T P). exact D.
  - intros rho D. unfold rho2eps_f. rewrite (unfiltered_dot k W rho U), D by (rewrite D; apply b64_0). rewrite (proj_0 th eta beta T P). apply eps_at_0.
  - intros rho D. unfold rho2eps_f. rewrite (unfiltered_dot k W rho U), D by (rewrite D; apply b64_1). rewrite (proj_1 th eta beta T P). apply eps_at_1, Q.
  - intros rho rho' D E. unfold rho2eps_f. rewrite !(unfiltered_dot k W _ U); [rewrite E; reflexivity|exact D|rewrite E; exact D].
Qed.

(** the filter computed by the code: the stored weights are nonnegative floats, and a pixel outside the
    design region is not filtered.  [W0] is the matrix before normalisation. *)
Lemma norm_pos W r : (forall k, weights (W k)) -> 0 < norm_f W r.
Proof.
  intro H. unfold norm_f. destruct (Req_EM_T _ 0) as [E|E]; [lra|].
  assert (0 <= rho2rhot_f W (fun _ => 1) r); [|lra].
  pose proof (fold_mono (W r) (fun _ => 0) (fun _ => 1) (H r) (fun _ => Rlt_le _ _ Rlt_0_1) 0 0 (Rle_refl 0)) as K.
  rewrite fold_zero in K by reflexivity. exact K.
Qed.
Lemma Forall_weights_filter row : weights row -> weights (filter (fun cw => if Req_EM_T (snd cw) 0 then false else true) row).
Proof. unfold weights. rewrite !Forall_forall. intros H x Hx. apply H. apply filter_In in Hx. apply Hx. Qed.
Lemma add_diag_weights k d row : b64 d -> 0 <= d -> weights row -> weights (add_diag k d row).
Proof.
  intros Hd Hp H. induction H as [|[c v] t [B1 B2] Ht IH]; cbn [add_diag].
  - constructor; [split; assumption|constructor].
  - destruct (Nat.eqb c k); constructor; try assumption.
    + cbn in *. split; [apply fl_b64|apply fl_nonneg; lra].
    + split; assumption.
Qed.
Lemma filter_all_zero (row : csr_row) : List.Forall (fun cw => snd cw = 0) row -> filter (fun cw => if Req_EM_T (snd cw) 0 then false else true) row = nil.
Proof. induction 1 as [|[c v] t Hv Ht IH]; [reflexivity|]. cbn in *. destruct (Req_EM_T v 0); [exact IH|contradiction]. Qed.
Lemma add_diag_zero k row : List.Forall (fun cw => snd cw = 0) row ->
  filter (fun cw => if Req_EM_T (snd cw) 0 then false else true) (add_diag k 1 row) = (k, 1) :: nil.
Proof.
  intro H. induction H as [|[c v] t Hv Ht IH]; cbn [add_diag].
  - cbn. destruct (Req_EM_T 1 0); [lra|reflexivity].
  - cbn [snd] in Hv. subst v. destruct (Nat.eqb_spec c k) as [->|N]; cbn [filter snd].
    + rewrite Rplus_0_l, fl_1. destruct (Req_EM_T 1 0); [lra|]. rewrite filter_all_zero by exact Ht. reflexivity.
    + destruct (Req_EM_T 0 0); [exact IH|contradiction].
Qed.
Theorem C108_filter_rows : forall design W0 k row, (forall r, weights (W0 r)) -> design k = 0 \/ design k = 1 ->
  Permutation row (get_W_row_f design W0 k) -> weights row /\ (design k = 0 -> unfiltered k row).
Proof.
  intros design W0 k row H D Hp. split.
  - unfold weights. apply Forall_forall. intros x Hx. apply (Permutation_in _ Hp) in Hx. revert x Hx. apply Forall_forall.
    unfold get_W_row_f. apply Forall_weights_filter. apply add_diag_weights.
    + apply fl_b64.
    + apply fl_nonneg. destruct D as [-> | ->]; lra.
    + unfold weights. rewrite Forall_map. eapply Forall_impl; [|exact (H k)]. intros [c v] [B1 B2]. cbn in *. split; [apply fl_b64|].
      apply fl_nonneg. apply Rmult_le_pos; [destruct D as [-> | ->]; lra|]. apply fl_nonneg. apply Rmult_le_pos; [exact B2|].
      apply fl_nonneg. unfold Rdiv. rewrite Rmult_1_l. apply Rlt_le, Rinv_0_lt_compat, norm_pos, H.
  - intro E. unfold get_W_row_f in Hp. rewrite E, Rminus_0_r, fl_1 in Hp. rewrite add_diag_zero in Hp.
    + exists nil, nil. apply Permutation_sym, Permutation_length_1_inv in Hp. rewrite Hp. repeat split; constructor.
    + rewrite Forall_map. apply Forall_forall. intros [c v] _. cbn. rewrite Rmult_0_l. apply fl_0.
Qed.

Lemma err_arith u X y p s : 0 < u <= / 1000 -> 0 < X -> X * (1 - u) <= y <= X * (1 + u) -> - (u * y) <= p - y <= u * y ->
  - (u * (1 + p)) <= s - (1 + p) <= u * (1 + p) -> Rabs (s - (1 + X)) <= 4 * u * (1 + X).
Proof.
  intros U HX Y Pp Ps.
  assert (A0 : 0 < u * X) by (apply Rmult_lt_0_compat; lra).
  assert (B0 : 0 < u * (u * X)) by (apply Rmult_lt_0_compat; lra).
  assert (B1 : u * (u * X) <= / 1000 * (u * X)) by (apply Rmult_le_compat_r; lra).
  assert (C1 : u * (u * (u * X)) <= / 1000 * (u * (u * X))) by (apply Rmult_le_compat_r; lra).
  assert (Y1 : u * y <= u * (X * (1 + u))) by (apply Rmult_le_compat_l; lra).
  assert (Q1 : p <= X + 2 * (u * X) + u * (u * X)) by lra.
  assert (Q2 : u * p <= u * (X + 2 * (u * X) + u * (u * X))) by (apply Rmult_le_compat_l; lra).
  apply Rabs_le. split; lra.
Qed.
(** the starting density of a permittivity between 1 and eps_m is a density, exactly 0 at 1 and exactly
    1 at eps_m; turned back into a permittivity it is off by at most four units in the last place *)
Theorem C108_initial_density : forall eps_m eps, permittivity64 eps_m -> b64 eps -> 1 <= eps <= eps_m -> 1 < eps_m ->
  density (eps2rho_f eps eps_m) /\ (eps = 1 -> eps2rho_f eps eps_m = 0) /\ (eps = eps_m -> eps2rho_f eps eps_m = 1) /\
  Rabs (rhob2eps_f (eps2rho_f eps eps_m) eps_m - eps) <= / 2 ^ 51 * eps.
Proof.
  intros eps_m eps P B H G. assert (Q : permittivity64 eps) by (destruct P as (_ & _ & P); split; [exact B|lra]).
  unfold eps2rho_f, rhob2eps_f. rewrite (minus1_exact eps_m P), (minus1_exact eps Q).
  assert (D : 0 < eps_m - 1) by lra. set (q := (eps - 1) / (eps_m - 1)).
  assert (Hq : 0 <= q <= 1).
  { unfold q. split; [apply Rdiv_le_0_compat; lra|]. apply Rmult_le_reg_r with (eps_m - 1); [exact D|]. unfold Rdiv. rewrite Rmult_assoc, Rinv_l; lra. }
  assert (E1 : q * (eps_m - 1) = eps - 1) by (unfold q, Rdiv; rewrite Rmult_assoc, Rinv_l; lra).
  split; [|split; [|split]].
  - split; [apply fl_b64|]. split; [apply fl_nonneg, Hq|apply fl_le; [apply b64_1|apply Hq]].
  - intros ->. unfold q, Rdiv. rewrite Rminus_eq_0, Rmult_0_l. apply fl_0.
  - intros ->. unfold q, Rdiv. rewrite Rinv_r by lra. apply fl_1.
  - destruct (Req_dec eps 1) as [->|N].
    { assert (Eq : q = 0) by (unfold q, Rdiv; rewrite Rminus_eq_0; apply Rmult_0_l). rewrite Eq, fl_0, Rmult_0_l, fl_0, Rplus_0_r, fl_1, Rminus_eq_0, Rabs_R0.
      apply Rmult_le_pos; [|lra]. apply Rlt_le, Rinv_0_lt_compat, pow_lt. lra. }
    (* eps - 1 is at least 2^-52, so nothing is subnormal *)
    assert (S1 : powerRZ 2 (-52) <= eps - 1).
    { destruct B as (m & e & E & Hm & He). assert (Pe : 0 < powerRZ 2 e) by (apply powerRZ_lt; lra).
      destruct (Z_le_gt_dec e 0) as [L|Ge].
      - assert (F : IZR (2 ^ (- e)) * powerRZ 2 e = 1).
        { rewrite (IZR_Zpower radix2) by lia. rewrite powerRZ_bpow, <- bpow_plus. replace (- e + e)%Z with 0%Z by lia. reflexivity. }
        assert (K : (2 ^ (- e) < m)%Z). { apply lt_IZR. apply Rmult_lt_reg_r with (powerRZ 2 e); [exact Pe|]. rewrite F, <- E. lra. }
        assert (K2 : (2 ^ (- e) < 2 ^ 53)%Z) by lia. apply Z.pow_lt_mono_r_iff in K2; [|lia|lia].
        apply Rle_trans with (powerRZ 2 e).
        + rewrite !powerRZ_bpow. apply bpow_le. lia.
        + rewrite E, <- F, <- Rmult_minus_distr_r, <- minus_IZR. rewrite <- (Rmult_1_l (powerRZ 2 e)) at 1. apply Rmult_le_compat_r; [lra|]. apply IZR_le. lia.
      - assert (F : eps = IZR (m * 2 ^ e)). { rewrite E, mult_IZR, (IZR_Zpower radix2) by lia. rewrite powerRZ_bpow. reflexivity. }
        apply Rle_trans with 1; [change 1 with (powerRZ 2 0); rewrite !powerRZ_bpow; apply bpow_le; lia|].
        assert (K : (1 < m * 2 ^ e)%Z) by (apply lt_IZR; rewrite <- F; lra). rewrite F. change 1 with (IZR 1). rewrite <- minus_IZR. apply IZR_le. lia. }
    assert (S2 : powerRZ 2 (-105) <= q).
    { apply Rmult_le_reg_r with (eps_m - 1); [exact D|]. rewrite E1. eapply Rle_trans; [|exact S1].
      apply Rle_trans with (powerRZ 2 (-105) * 2 ^ 53).
      - apply Rmult_le_compat_l; [apply Rlt_le, powerRZ_lt; lra|]. destruct P as (_ & _ & P). lra.
      - replace (2 ^ 53) with (powerRZ 2 53) by reflexivity. rewrite <- powerRZ_add by lra. apply Rle_refl. }
    assert (T1 : powerRZ 2 (-1022) <= powerRZ 2 (-106)) by (rewrite !powerRZ_bpow; apply bpow_le; lia).
    assert (T2 : powerRZ 2 (-105) = 2 * powerRZ 2 (-106)).
    { replace (-105)%Z with (1 + -106)%Z by reflexivity. rewrite powerRZ_add by lra. rewrite powerRZ_1. reflexivity. }
    assert (T3 : powerRZ 2 (-105) <= powerRZ 2 (-52)) by (rewrite !powerRZ_bpow; apply bpow_le; lia).
    assert (T4 : 0 < powerRZ 2 (-106)) by (apply powerRZ_lt; lra).
    assert (V := proj1 (proj2 v_value)). assert (V2 := proj2 (proj2 v_value)). assert (V3 : / 2 ^ 51 = 4 * / 2 ^ 53) by (rewrite (pow_IZR 2 53), (pow_IZR 2 51); cbn -[IZR]; lra).
    assert (F1 : Rabs (fl q - q) <= / 2 ^ 53 * q).
    { rewrite <- (Rabs_right q) at 3 by lra. apply fl_error. right. rewrite Rabs_right by lra. lra. }
    rewrite V3. pose proof fl_error as UE. pose proof fl_plus_error as UP. set (u := / 2 ^ 53) in *. clearbody u. assert (U : 0 < u <= / 1000) by lra. clear V V2 V3.
    set (r := fl q) in *. apply Rabs_le_inv in F1.
    assert (R1 : powerRZ 2 (-106) <= q * (1 - u)) by (rewrite T2 in S2; nra).
    assert (X1 : powerRZ 2 (-52) * / 2 <= r * (eps_m - 1)). { apply Rle_trans with ((eps - 1) * (1 - u)); [nra|]. rewrite <- E1. nra. }
    assert (X2 : powerRZ 2 (-1022) <= r * (eps_m - 1)) by lra.
    assert (X0 : 0 < powerRZ 2 (-1022)) by apply bpow_tiny.
    assert (F2 : Rabs (fl (r * (eps_m - 1)) - r * (eps_m - 1)) <= u * (r * (eps_m - 1))).
    { rewrite <- (Rabs_right (r * (eps_m - 1))) at 3 by lra. apply UE. right. rewrite Rabs_right by lra. exact X2. }
    assert (F3 := UP 1 (fl (r * (eps_m - 1))) b64_1 (fl_b64 _)).
    set (p := fl (r * (eps_m - 1))) in *. apply Rabs_le_inv in F2.
    assert (Y : (eps - 1) * (1 - u) <= r * (eps_m - 1) <= (eps - 1) * (1 + u)) by (rewrite <- E1; nra).
    set (y := r * (eps_m - 1)) in *. clearbody y. set (X := eps - 1) in *. assert (Ex : eps = 1 + X) by (unfold X; ring).
    assert (HX : 0 < X) by (unfold X; lra). clearbody X p. subst eps.
    rewrite (Rabs_right (1 + p)) in F3 by (assert (0 <= y) by nra; nra). apply Rabs_le_inv in F3. apply Rabs_le.
    apply Rabs_le_inv. apply (err_arith u X y p); [exact U|exact HX|exact Y|lra|lra].
Qed.

(** a two-level design goes to its density and back without any change, bit for bit *)
Theorem C108_two_level_designs : forall th eta beta eps_m W k eps, tanh_like th -> projection_parameters eta beta -> permittivity64 eps_m -> 1 < eps_m ->
  unfiltered k (W k) -> eps k = 1 \/ eps k = eps_m ->
  rho2eps_f th (fun j => eps2rho_f (eps j) eps_m) eps_m W eta beta k = eps k.
Proof.
  intros th eta beta eps_m W k eps T P Q G U [E|E]; destruct (C108_unfiltered_pixels th eta beta eps_m W k T P Q U) as (_ & U0 & U1 & _); rewrite E.
  - apply U0. rewrite E. apply (C108_initial_density eps_m 1 Q); [apply b64_1|lra|exact G|reflexivity].
  - apply U1. rewrite E. apply (C108_initial_density eps_m eps_m Q); [apply Q|lra|exact G|reflexivity].
Qed.

(** gradient descent and ADAM: whatever the gradients and the step sizes, after any number of updates
    every density is in [0, 1], and a pixel outside the design region has its density and its
    permittivity of the start, bit for bit *)
Lemma clip01_range x : 0 <= clip01 x <= 1.
Proof. unfold clip01. destruct (Rlt_dec x 0); [destruct (Rlt_dec 1 0); lra|]. destruct (Rlt_dec 1 x); lra. Qed.
Lemma clip01_in x : 0 <= x <= 1 -> clip01 x = x.
Proof. intro H. unfold clip01. destruct (Rlt_dec x 0); [lra|]. destruct (Rlt_dec 1 x); lra. Qed.
Lemma clip01_b64 x : b64 x -> b64 (clip01 x).
Proof. intro H. unfold clip01. destruct (Rlt_dec x 0); [destruct (Rlt_dec 1 0); [lra|apply b64_0]|]. destruct (Rlt_dec 1 x); [apply b64_1|exact H]. Qed.
Theorem C108_updates : forall design steps rho k, density (rho k) ->
  density (run_rho_f design steps rho k) /\ (design k = 0 -> run_rho_f design steps rho k = rho k).
Proof.
  intros design steps. induction steps as [|[s g] t IH]; intros rho k D; [split; [exact D|reflexivity]|].
  cbn [run_rho_f fold_left fst snd]. fold (run_rho_f design t (update_rho_f design s g rho)).
  assert (D' : density (update_rho_f design s g rho k)) by (split; [apply clip01_b64, fl_b64|apply clip01_range]).
  destruct (IH _ _ D') as [I1 I2]. split; [exact I1|]. intro E. rewrite (I2 E). unfold update_rho_f.
  rewrite E, Rmult_0_l, fl_0, Rmult_0_l, fl_0, Rplus_0_r, (fl_id (rho k)) by apply D. apply clip01_in, D.
Qed.
Theorem C108_runs : forall th eta beta eps_m design W0 W steps rho, tanh_like th -> projection_parameters eta beta -> permittivity64 eps_m ->
  (forall r, weights (W0 r)) -> (forall r, design r = 0 \/ design r = 1) -> (forall r, Permutation (W r) (get_W_row_f design W0 r)) ->
  (forall r, density (rho r)) -> forall k,
  1 <= rho2eps_f th (run_rho_f design steps rho) eps_m W eta beta k <= rho2eps_f th (fun _ => 1) eps_m W eta beta k /\
  (design k = 0 -> 1 <= rho2eps_f th (run_rho_f design steps rho) eps_m W eta beta k <= eps_m /\
     rho2eps_f th (run_rho_f design steps rho) eps_m W eta beta k = rho2eps_f th rho eps_m W eta beta k).
Proof.
  intros th eta beta eps_m design W0 W steps rho T P Q H0 HD HW HR k.
  destruct (C108_filter_rows design W0 k (W k) H0 (HD k) (HW k)) as [A B]. split.
  - apply (C108_density_to_permittivity th eta beta eps_m W k T P Q A). intro j. apply C108_updates, HR.
  - intro E. destruct (C108_unfiltered_pixels th eta beta eps_m W k T P Q (B E)) as (U1 & _ & _ & U2). split.
    + apply U1. apply C108_updates, HR.
    + apply U2; [apply HR|]. apply C108_updates; [apply HR|exact E].
Qed.

(** the hypotheses on tanh are met by a correctly rounded tanh *)
Lemma fl_pos_of x : powerRZ 2 (-1074) * / 2 < x -> 0 < fl x.
Proof.
  intro H. set (m := powerRZ 2 (-1074)) in *. assert (Hm : 0 < m) by (apply powerRZ_lt; lra).
  destruct (Rle_lt_dec m x) as [L|L]; [eapply Rlt_le_trans; [exact Hm|apply fl_ge; [apply b64_pow; lia|exact L]]|].
  destruct (Rle_lt_dec (fl x) 0) as [N|N]; [|exact N]. exfalso.
  destruct (C104_rounding_is_nearest x) as [_ K]. specialize (K m ltac:(apply b64_pow; lia)).
  rewrite (Rabs_left1 (fl x - x)), (Rabs_right (m - x)) in K by lra. lra.
Qed.
Lemma b64_least x : b64 x -> 0 < x -> powerRZ 2 (-1074) <= x.
Proof.
  intros (m & e & -> & Hm & He) H. assert (P : 0 < powerRZ 2 e) by (apply powerRZ_lt; lra).
  assert (1 <= m)%Z. { assert (0 < m)%Z; [|lia]. apply lt_IZR. apply Rmult_lt_reg_r with (powerRZ 2 e); [exact P|]. rewrite Rmult_0_l. exact H. }
  apply Rle_trans with (powerRZ 2 e); [rewrite !powerRZ_bpow; apply bpow_le, He|]. rewrite <- (Rmult_1_l (powerRZ 2 e)) at 1.
  apply Rmult_le_compat_r; [lra|]. apply IZR_le, H0.
Qed.
Lemma tanh_half x : 0 < x < 1 -> x * / 2 < tanh x.
Proof.
  intro H. rewrite tanh_exp. pose proof (exp_ineq1 (2 * x) ltac:(lra)) as E. set (y := exp (2 * x)) in *. clearbody y.
  apply Rmult_lt_reg_r with (y + 1); [lra|]. unfold Rdiv. rewrite Rmult_minus_distr_r, (Rmult_assoc 2), Rinv_l by lra. nra.
Qed.
Theorem C108_correctly_rounded_tanh : tanh_like (fun x => fl (tanh x)).
Proof.
  split; [|split; [|split]].
  - intros x _. apply fl_b64.
  - intros x y _ _ [H| ->]; [|apply Rle_refl]. apply fl_mono, Rlt_le, tanh_incr, H.
  - intros x _. rewrite tanh_opp. apply fl_opp.
  - intros x B H. apply fl_pos_of. pose proof (b64_least x B H) as L.
    assert (S : 0 < powerRZ 2 (-1074) < 1). { split; [apply powerRZ_lt; lra|]. change 1 with (powerRZ 2 0). rewrite !powerRZ_bpow. apply bpow_lt. lia. }
    eapply Rlt_le_trans; [apply (tanh_half _ S)|]. destruct L as [L|L]; [apply Rlt_le, tanh_incr, L|rewrite L; apply Rle_refl].
Qed.

(** the defaults of the code meet the hypotheses: eta = 1/2, beta = 100, silicon 12.25; three pixels in
    a row of which the middle one is designed, with neighbours weighted 1/2 and itself 1 *)
Example C108_met :
  projection_parameters (/ 2) 100 /\ permittivity64 (49 / 4) /\
  let design := fun k => if Nat.eqb k 1 then 1 else 0 in
  let W0 := fun k => if Nat.eqb k 1 then (0%nat, / 2) :: (1%nat, 1) :: (2%nat, / 2) :: nil else nil in
  (forall r, weights (W0 r)) /\ (forall r, design r = 0 \/ design r = 1) /\
  get_W_row_f design W0 0 = (0%nat, 1) :: nil /\ get_W_row_f design W0 1 = (0%nat, / 2) :: (1%nat, / 2) :: (2%nat, / 2) :: nil.
Proof.
  assert (H2 : b64 (/ 2)) by exact b64_half.
  split; [split; [exact H2|split; [lra|split; [apply (b64_IZR 100); reflexivity|]]]|].
  { apply Rle_trans with (powerRZ 2 0); [rewrite !powerRZ_bpow; apply bpow_le; lia|cbn; lra]. }
  split. { split; [exists 49%Z, (-2)%Z; change (powerRZ 2 (-2)) with (/ (2 * (2 * 1))); split; [lra|split; [reflexivity|lia]]|]. rewrite (pow_IZR 2 53). cbn -[IZR]. lra. }
  intros design W0. split; [|split].
  - intro r. unfold W0. destruct (Nat.eqb r 1); repeat constructor; cbn; try exact H2; try apply b64_1; lra.
  - intro r. unfold design. destruct (Nat.eqb r 1); [right|left]; reflexivity.
  - assert (N0 : forall c, c <> 1%nat -> norm_f W0 c = 1).
    { intros c Hc. unfold norm_f, rho2rhot_f, W0. destruct (Nat.eqb_spec c 1); [contradiction|]. cbn. destruct (Req_EM_T 0 0); [reflexivity|contradiction]. }
    assert (E32 : fl (fl (0 + fl (/ 2 * 1)) + fl (1 * 1)) = / 2 * 3).
    { rewrite !Rmult_1_r, !(fl_id (/ 2)), Rplus_0_l, (fl_id (/ 2)), fl_1 by exact H2. replace (/ 2 + 1) with (/ 2 * 3) by lra. apply fl_id.
      exists 3%Z, (-1)%Z. change (powerRZ 2 (-1)) with (/ (2 * 1)). split; [lra|split; [reflexivity|lia]]. }
    assert (E2 : fl (fl (fl (0 + fl (/ 2 * 1)) + fl (1 * 1)) + fl (/ 2 * 1)) = 2).
    { rewrite E32, Rmult_1_r, (fl_id (/ 2)) by exact H2. replace (/ 2 * 3 + / 2) with 2 by lra. apply fl_id. apply (b64_IZR 2); reflexivity. }
    assert (N1 : norm_f W0 1 = 2).
    { unfold norm_f, rho2rhot_f. change (W0 1%nat) with ((0%nat, / 2) :: (1%nat, 1) :: (2%nat, / 2) :: nil). cbn [fold_left fst snd]. rewrite E2. destruct (Req_EM_T 2 0); [lra|reflexivity]. }
    split.
    + unfold get_W_row_f. change (W0 0%nat) with (@nil (nat * R)). change (design 0%nat) with 0. cbn [map]. rewrite Rminus_0_r, fl_1. apply add_diag_zero. constructor.
    + unfold get_W_row_f. change (W0 1%nat) with ((0%nat, / 2) :: (1%nat, 1) :: (2%nat, / 2) :: nil). change (design 1%nat) with 1.
      cbn [map fst snd add_diag Nat.eqb]. rewrite (N0 0%nat), (N0 2%nat), N1 by lia.
      replace (1 / 1) with 1 by lra. replace (1 / 2) with (/ 2) by lra.
      rewrite Rminus_eq_0, fl_0, fl_1, (fl_id (/ 2)) by exact H2. rewrite !Rmult_1_r, !Rmult_1_l, !(fl_id (/ 2)) by exact H2. rewrite Rplus_0_r, (fl_id (/ 2)) by exact H2.
      cbn [filter snd]. destruct (Req_EM_T (/ 2) 0); [lra|reflexivity].
Qed.
