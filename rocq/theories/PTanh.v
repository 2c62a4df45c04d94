(** Hyperbolic functions, for the projection of filter.py. *)
From Coq Require Import Reals Lra Lia.
From Coquelicot Require Import Coquelicot.
Local Open Scope R_scope.

Lemma cosh_pos x : 0 < cosh x.
Proof. unfold cosh. assert (H := exp_pos x). assert (H1 := exp_pos (- x)). lra. Qed.
Lemma exp_mult_opp x : exp x * exp (- x) = 1.
Proof. rewrite <- exp_plus. replace (x + - x) with 0 by ring. apply exp_0. Qed.
Lemma cosh_sinh x : cosh x * cosh x - sinh x * sinh x = 1.
Proof. unfold cosh, sinh. assert (H := exp_mult_opp x). lra. Qed.
Lemma sinh_plus x y : sinh (x + y) = sinh x * cosh y + cosh x * sinh y.
Proof.
  unfold cosh, sinh. replace (- (x + y)) with (- x + - y) by ring. rewrite !exp_plus. field.
Qed.
Lemma cosh_plus x y : cosh (x + y) = cosh x * cosh y + sinh x * sinh y.
Proof.
  unfold cosh, sinh. replace (- (x + y)) with (- x + - y) by ring. rewrite !exp_plus. field.
Qed.
Lemma sinh_opp x : sinh (- x) = - sinh x.
Proof. unfold sinh. rewrite Ropp_involutive. field. Qed.
Lemma cosh_opp x : cosh (- x) = cosh x.
Proof. unfold cosh. rewrite Ropp_involutive. field. Qed.
Lemma sinh_incr x y : x < y -> sinh x < sinh y.
Proof.
  intro H. unfold sinh. assert (H1 := exp_increasing _ _ H).
  assert (H2 : exp (- y) < exp (- x)) by (apply exp_increasing; lra). lra.
Qed.
Lemma sinh_pos x : 0 < x -> 0 < sinh x.
Proof. intro H. rewrite <- sinh_0. apply sinh_incr; assumption. Qed.
Lemma sinh_ge0 x : 0 <= x -> 0 <= sinh x.
Proof. intros [H| <-]; [left; apply sinh_pos; assumption|rewrite sinh_0; lra]. Qed.
Lemma cosh_incr x y : 0 <= x < y -> cosh x < cosh y.
Proof.
  intros [H0 H]. assert (E: (cosh x * cosh x < cosh y * cosh y)).
  { assert (A := cosh_sinh x). assert (B := cosh_sinh y). assert (I := sinh_incr _ _ H).
    assert (P := sinh_ge0 x H0). nra. }
  assert (A := cosh_pos x). assert (B := cosh_pos y). nra.
Qed.
Lemma cosh_abs x : cosh (Rabs x) = cosh x.
Proof. unfold Rabs. destruct (Rcase_abs x); [apply cosh_opp|reflexivity]. Qed.
Lemma cosh_abs_lt x y : Rabs x < Rabs y -> cosh x < cosh y.
Proof. intro H. rewrite <- (cosh_abs x), <- (cosh_abs y). apply cosh_incr. split; [apply Rabs_pos|assumption]. Qed.
Lemma tanh_plus_tanh a b : tanh a + tanh b = sinh (a + b) / (cosh a * cosh b).
Proof.
  unfold tanh. rewrite sinh_plus. assert (H := cosh_pos a). assert (H1 := cosh_pos b). field. split; lra.
Qed.
Lemma tanh_opp x : tanh (- x) = - tanh x.
Proof. unfold tanh. rewrite sinh_opp, cosh_opp. assert (H := cosh_pos x). field. lra. Qed.
Lemma tanh_0' : tanh 0 = 0.
Proof. unfold tanh. rewrite sinh_0. unfold Rdiv. ring. Qed.
Lemma tanh_incr x y : x < y -> tanh x < tanh y.
Proof.
  intro H. assert (E := tanh_plus_tanh y (- x)). rewrite tanh_opp in E.
  assert (P: 0 < sinh (y + - x) / (cosh y * cosh (- x))).
  { apply Rdiv_lt_0_compat; [apply sinh_pos; lra|]. apply Rmult_lt_0_compat; apply cosh_pos. }
  lra.
Qed.
Lemma tanh_pos x : 0 < x -> 0 < tanh x.
Proof. intro H. rewrite <- tanh_0'. apply tanh_incr; assumption. Qed.
Lemma tanh_ge0 x : 0 <= x -> 0 <= tanh x.
Proof. intros [H| <-]; [left; apply tanh_pos; assumption|rewrite tanh_0'; lra]. Qed.
Lemma is_derive_sinh x : is_derive sinh x (cosh x).
Proof. apply is_derive_Reals. apply derivable_pt_lim_sinh. Qed.
Lemma is_derive_cosh x : is_derive cosh x (sinh x).
Proof. apply is_derive_Reals. apply derivable_pt_lim_cosh. Qed.
Lemma is_derive_tanh x : is_derive tanh x (1 - tanh x ^ 2).
Proof.
  unfold tanh. assert (H := cosh_pos x).
  replace (1 - (sinh x / cosh x) ^ 2) with ((cosh x * cosh x - sinh x * sinh x) / cosh x ^ 2) by (field; lra).
  apply (is_derive_div sinh cosh x (cosh x) (sinh x)); [apply is_derive_sinh|apply is_derive_cosh|lra].
Qed.
Lemma tanh_exp x : tanh x = 1 - 2 / (exp (2 * x) + 1).
Proof.
  unfold tanh, sinh, cosh. replace (2 * x) with (x + x) by ring. rewrite exp_plus.
  assert (E := exp_mult_opp x). assert (P := exp_pos x). assert (P2 := exp_pos (- x)).
  replace (exp (- x)) with (/ exp x) by (field_simplify_eq; lra).
  field. repeat split; try lra; try nra.
Qed.
Lemma tanh_lim_p : is_lim tanh p_infty 1.
Proof.
  apply (is_lim_ext (fun x => 1 - 2 / (exp (2 * x) + 1))); [intro; symmetry; apply tanh_exp|].
  assert (HE: is_lim (fun x => exp (2 * x) + 1) p_infty p_infty).
  { eapply is_lim_plus.
    - apply (is_lim_comp exp (fun x => 2 * x) p_infty p_infty p_infty).
      + apply is_lim_exp_p.
      + evar_last. { apply is_lim_scal_l. apply is_lim_id. } simpl. destruct (Rle_dec 0 2); [|lra].
        destruct (Rle_lt_or_eq_dec 0 2 _); [reflexivity|lra].
      + exists 0. intros; discriminate.
    - apply is_lim_const.
    - reflexivity. }
  replace (Finite 1) with (Rbar_minus 1 0) by (simpl; f_equal; ring).
  apply (is_lim_minus _ _ _ 1 0); [apply is_lim_const| |reflexivity].
  evar_last. { apply is_lim_scal_l. apply is_lim_inv; [exact HE|discriminate]. }
  simpl. f_equal. ring.
Qed.
Lemma tanh_lim_m : is_lim tanh m_infty (-1).
Proof.
  apply (is_lim_ext (fun x => - tanh (- x))); [intro y; rewrite tanh_opp; ring|].
  replace (Finite (-1)) with (Rbar_opp 1) by reflexivity.
  apply is_lim_opp. apply (is_lim_comp tanh (fun x => - x) m_infty 1 p_infty).
  - apply tanh_lim_p.
  - replace p_infty with (Rbar_opp m_infty) by reflexivity. apply is_lim_opp. apply is_lim_id.
  - exists 0. intros; discriminate.
Qed.
(** sinh(b x)/b tends to x *)
Lemma sinh_scaled_lim x : is_lim (fun b => sinh (b * x) / b) 0 x.
Proof.
  assert (D: is_derive (fun b => sinh (b * x)) 0 x).
  { evar_last. { apply (is_derive_comp sinh (fun b => b * x)); [apply is_derive_sinh|].
      apply is_derive_Reals. apply derivable_pt_lim_scal_right. apply derivable_pt_lim_id. }
    unfold scal; simpl; unfold mult; simpl. rewrite Rmult_0_l. unfold cosh. rewrite Ropp_0, exp_0. field. }
  apply is_derive_Reals in D. apply is_lim_spec. intros eps.
  destruct (D (pos eps) (cond_pos eps)) as [d Hd]. exists d. intros b Hb Hne.
  assert (Hb': Rabs b < d).
  { rewrite <- (Rminus_0_r b). exact Hb. }
  specialize (Hd b Hne Hb'). rewrite Rplus_0_l, Rmult_0_l, sinh_0, Rminus_0_r in Hd. exact Hd.
Qed.
