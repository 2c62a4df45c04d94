(** Adjoint calculus for the model of gradients.py. *)
From Coq Require Import Reals Lra Lia List ZArith Arith Bool String FunctionalExtensionality.
From Coquelicot Require Import Coquelicot.
From Verif Require Import Base Linear MCore MSim Spec PCore PSim PropsNl PropsIter MFilter PropsFilter MOpt PDiff.
Import ListNotations.
Local Open Scope nat_scope.

(** the density with pixel p changed by t *)
Definition rho_at (rho : rvec) (p : nat) (t : R) : rvec := fun k => if Nat.eqb k p then (rho k + t)%R else rho k.
(** the simulation with the structure of the density r *)
Definition with_density (o : opt) (s : sim) (r : rvec) : sim := set_eps (opt_eps o s r) (upd_rho (Val r) s).

(** ** Permittivity as a function of one density *)
Lemma rho2rhot_at M rho W p t k : p < M -> rho2rhot M (rho_at rho p t) W k = (rho2rhot M rho W k + W k p * t)%R.
Proof.
  intro Hp. unfold rho2rhot, rmv. rewrite (rsum_ext M _ (fun j => W k j * rho j + (if Nat.eqb j p then W k j * t else 0))%R).
  - rewrite rsum_plus. f_equal. rewrite (rsum_single M p); [rewrite Nat.eqb_refl; reflexivity|assumption|].
    intros j _ Hj. destruct (Nat.eqb_spec j p); [contradiction|reflexivity].
  - intros j _. unfold rho_at. destruct (Nat.eqb j p); ring.
Qed.
Lemma rho_at_0 M rho p : forall k, k < M -> rho_at rho p 0%R k = rho k.
Proof. intros k _. unfold rho_at. destruct (Nat.eqb k p); ring. Qed.
Lemma rho2eps_at_0 M rho em W eta beta p k : rho2eps M (rho_at rho p 0%R) em W eta beta k = rho2eps M rho em W eta beta k.
Proof. unfold rho2eps. do 2 f_equal. unfold rho2rhot, rmv. apply rsum_ext. intros j Hj. rewrite (rho_at_0 M) by assumption. reflexivity. Qed.
Lemma eps_at_derive M rho em W eta beta p k : p < M -> (tanh (beta * eta) + tanh (beta * (1 - eta)) <> 0)%R ->
  is_derive (fun t => rho2eps M (rho_at rho p t) em W eta beta k) 0%R
    ((em - 1) * drhob_drhot (rho2rhot M rho W k) eta beta * W k p)%R.
Proof.
  intros Hp HD.
  apply (is_derive_ext (fun t => 1 + (em - 1) * rhot2rhob (rho2rhot M rho W k + W k p * t) eta beta)%R).
  { intro t. unfold rho2eps, rhob2eps. rewrite rho2rhot_at by assumption. match goal with |- ?a = ?b => change (@eq R a b) end. ring. }
  evar_last.
  - apply @is_derive_plus; [apply (is_derive_const 1%R)|].
    apply (is_derive_scal (fun t => rhot2rhob (rho2rhot M rho W k + W k p * t) eta beta) 0%R (em - 1)%R).
    apply (is_derive_comp (fun x => rhot2rhob x eta beta) (fun t => rho2rhot M rho W k + W k p * t)%R 0%R).
    + apply proj_is_derive; assumption.
    + auto_derive; [exact I|reflexivity].
  - unfold plus, zero, scal; simpl. unfold mult; simpl. rewrite Rmult_0_r, Rplus_0_r. ring.
Qed.

(** ** Permittivity along a line of densities *)
Definition rho_dir (rho d : rvec) (t : R) : rvec := fun k => (rho k + d k * t)%R.
Definition unitv (p : nat) : rvec := fun k => if Nat.eqb k p then 1%R else 0%R.
Lemma rho_at_dir rho p : rho_at rho p = rho_dir rho (unitv p).
Proof.
  apply functional_extensionality. intro t. apply functional_extensionality. intro k. unfold rho_at, rho_dir, unitv.
  destruct (Nat.eqb k p); ring.
Qed.
Lemma rmv_unitv M W p k : p < M -> rmv M W (unitv p) k = W k p.
Proof.
  intro Hp. unfold rmv, unitv. rewrite (rsum_single M p); [rewrite Nat.eqb_refl; ring|exact Hp|].
  intros j _ Hj. destruct (Nat.eqb_spec j p); [contradiction|ring].
Qed.
Lemma rho2rhot_dir M rho W d t k : rho2rhot M (rho_dir rho d t) W k = (rho2rhot M rho W k + rmv M W d k * t)%R.
Proof.
  unfold rho2rhot, rmv. rewrite (Rmult_comm _ t), <- rsum_scal, <- rsum_plus. apply rsum_ext. intros j _. unfold rho_dir. ring.
Qed.
Lemma rho_dir_0 rho d : rho_dir rho d 0%R = rho.
Proof. apply functional_extensionality. intro k. unfold rho_dir. ring. Qed.
Lemma eps_dir_derive M rho em W eta beta d k : (tanh (beta * eta) + tanh (beta * (1 - eta)) <> 0)%R ->
  is_derive (fun t => rho2eps M (rho_dir rho d t) em W eta beta k) 0%R
    ((em - 1) * drhob_drhot (rho2rhot M rho W k) eta beta * rmv M W d k)%R.
Proof.
  intros HD.
  apply (is_derive_ext (fun t => 1 + (em - 1) * rhot2rhob (rho2rhot M rho W k + rmv M W d k * t) eta beta)%R).
  { intro t. unfold rho2eps, rhob2eps. rewrite rho2rhot_dir. match goal with |- ?a = ?b => change (@eq R a b) end. ring. }
  evar_last.
  - apply @is_derive_plus; [apply (is_derive_const 1%R)|].
    apply (is_derive_scal (fun t => rhot2rhob (rho2rhot M rho W k + rmv M W d k * t) eta beta) 0%R (em - 1)%R).
    apply (is_derive_comp (fun x => rhot2rhob x eta beta) (fun t => rho2rhot M rho W k + rmv M W d k * t)%R 0%R).
    + apply proj_is_derive; assumption.
    + auto_derive; [exact I|reflexivity].
  - unfold plus, zero, scal; simpl. unfold mult; simpl. rewrite Rmult_0_r, Rplus_0_r. ring.
Qed.

(** ** The system at a nearby density *)
Definition kap (s : sim) : R := (s_omega s ^ 2 * EPSILON_0 * s_L0 s)%R.
Lemma with_density_A o s r : s_pol s = PolEz -> consistent s ->
  s_M (with_density o s r) = s_M s /\ s_derivs (with_density o s r) = s_derivs s /\
  forall X k, k < s_M s -> mv (s_M s) (s_A (with_density o s r)) X k =
    (mv (s_M s) (s_A s) X k + RtoC (kap s * (rho2eps (s_M s) r (o_eps_m o) (o_W o) (o_eta o) (o_beta o) k - nd_buf (s_eps s) k)) * X k)%C.
Proof.
  intros Hpol HC. destruct (consistent_A s HC) as [EA ED]. split; [reflexivity|]. split.
  - rewrite ED. unfold with_density, set_eps. cbn. rewrite Hpol. reflexivity.
  - intros X k Hk. unfold s_M at 1 2. rewrite EA, Hpol.
    change (s_A (with_density o s r)) with (fst (construct_A (s_omega s) (s_xrange s) (s_yrange s) (s_Nx s) (s_Ny s)
      (cvec (nd_buf (opt_eps o s r))) (s_NPML s) (s_pol s) (s_L0 s) true)).
    rewrite Hpol. rewrite !mv_construct_Ez by exact Hk. unfold kap, s_epsC, cvec, opt_eps. cbn [nd_buf].
    rewrite !RtoC_mult, !RtoC_minus. ring.
Qed.

(** ** Adjoint identities *)
Lemma adjoint_linear n A lam b x' (kp : R) (dl : rvec) (E : vec) :
  solves n (mT A) lam b -> (forall i, i < n -> mv n A x' i = - (RtoC (kp * dl i) * E i))%C ->
  (- Re (dot n b x') = rsum n (fun j => dl j * Re (RtoC kp * E j * lam j)%C))%R.
Proof.
  intros HL HX. assert (E1: dot n b x' = dot n lam (mv n A x')).
  { rewrite dot_mT. apply dot_ext; [|apply veq_refl]. intros k Hk. symmetry. exact (HL k Hk). }
  rewrite E1, (dot_ext n lam lam _ (fun i => - (RtoC (kp * dl i) * E i))%C (veq_refl n lam) HX).
  unfold dot. rewrite Re_csum, <- rsum_opp. apply rsum_ext. intros j _.
  rewrite RtoC_mult. replace (lam j * - (RtoC kp * RtoC (dl j) * E j))%C with (- (RtoC (dl j) * (RtoC kp * E j * lam j)))%C by ring.
  rewrite Re_opp, Re_RtoC_mult. ring.
Qed.

(** the stacked system *)
Definition stack2 (n : nat) (x y : vec) : vec := fun k => if Nat.ltb k n then x k else y (k - n).
Lemma stack2_lo n x y k : k < n -> stack2 n x y k = x k.
Proof. intro H. unfold stack2. rewrite (proj2 (Nat.ltb_lt k n)) by assumption. reflexivity. Qed.
Lemma stack2_hi n x y k : stack2 n x y (n + k) = y k.
Proof. unfold stack2. rewrite (proj2 (Nat.ltb_ge (n + k) n)) by lia. f_equal. lia. Qed.
Lemma stack2_eta n z : forall k, stack2 n z (fun k => z (n + k)) k = z k.
Proof. intro k. unfold stack2. destruct (Nat.ltb_spec k n); [reflexivity|]. f_equal. lia. Qed.
Lemma mv_block_lo n A B C D z i : i < n -> mv (2 * n) (block2 n A B C D) z i = (mv n A z i + mv n B (fun k => z (n + k)%nat) i)%C.
Proof.
  intro Hi. unfold mv. replace (2 * n) with (n + n) by lia. rewrite csum_app. unfold block2.
  rewrite (proj2 (Nat.ltb_lt i n)) by assumption. f_equal; apply csum_ext; intros k Hk.
  - rewrite (proj2 (Nat.ltb_lt k n)) by assumption. reflexivity.
  - rewrite (proj2 (Nat.ltb_ge (n + k) n)) by lia. replace (n + k - n) with k by lia. reflexivity.
Qed.
Lemma mv_block_hi n A B C D z i : i < n -> mv (2 * n) (block2 n A B C D) z (n + i) = (mv n C z i + mv n D (fun k => z (n + k)%nat) i)%C.
Proof.
  intro Hi. unfold mv. replace (2 * n) with (n + n) by lia. rewrite csum_app. unfold block2.
  rewrite (proj2 (Nat.ltb_ge (n + i) n)) by lia. replace (n + i - n) with i by lia. f_equal; apply csum_ext; intros k Hk.
  - rewrite (proj2 (Nat.ltb_lt k n)) by assumption. reflexivity.
  - rewrite (proj2 (Nat.ltb_ge (n + k) n)) by lia. replace (n + k - n) with k by lia. reflexivity.
Qed.
Lemma mT_block n A B C D : forall i j, mT (block2 n A B C D) i j = block2 n (mT A) (mT C) (mT B) (mT D) i j.
Proof. intros i j. unfold mT, block2. destruct (Nat.ltb i n), (Nat.ltb j n); reflexivity. Qed.
Lemma mv_mconj n A z i : mv n (mconj A) z i = Cconj (mv n A (vconj z) i).
Proof. rewrite mv_conj. unfold mv. apply csum_ext. intros k _. unfold vconj. rewrite Cconj_invol. reflexivity. Qed.
Lemma Cconj_eq0 z : Cconj z = RtoC 0 -> z = RtoC 0.
Proof. intro H. rewrite <- (Cconj_invol z), H. apply Cconj_RtoC. Qed.
Lemma mv_lin n A a u b v i : mv n A (fun k => a * u k + b * v k)%C i = (a * mv n A u i + b * mv n A v i)%C.
Proof. unfold mv. rewrite <- !csum_scal, <- csum_plus. apply csum_ext. intros; ring. Qed.

Lemma Cfull_nonsingular n C11 C12 : widely_injective n C11 C12 -> nonsingular (2 * n) (kerr_Cfull n C11 C12).
Proof.
  intro HI. apply injective_nonsingular. intros z Hz.
  set (x := z : vec). set (y := fun k => z (n + k)).
  assert (H1: forall i, i < n -> (mv n C11 x i + mv n C12 y i = RtoC 0)%C).
  { intros i Hi. refine (eq_trans (eq_sym (mv_block_lo n C11 C12 (mconj C12) (mconj C11) z i Hi)) _). apply Hz. lia. }
  assert (H2: forall i, i < n -> (mv n C12 (vconj x) i + mv n C11 (vconj y) i = RtoC 0)%C).
  { intros i Hi. apply Cconj_eq0. rewrite Cconj_plus, <- !mv_mconj.
    refine (eq_trans (eq_sym (mv_block_hi n C11 C12 (mconj C12) (mconj C11) z i Hi)) _). apply Hz. lia. }
  assert (HU: forall k, k < n -> (x k + Cconj (y k) = RtoC 0)%C).
  { apply (HI (fun k => x k + Cconj (y k))%C). intros i Hi.
    change (mv n C11 (fun c => x c + Cconj (y c)) i + csum n (fun c => C12 i c * Cconj (x c + Cconj (y c))) = RtoC 0)%C.
    rewrite (csum_ext n _ (fun c => C12 i c * (RtoC 1 * vconj x c + RtoC 1 * y c))%C) by (intros; unfold vconj; rewrite Cconj_plus, Cconj_invol; ring).
    change (csum n (fun c => C12 i c * (RtoC 1 * vconj x c + RtoC 1 * y c)))%C with (mv n C12 (fun c => RtoC 1 * vconj x c + RtoC 1 * y c)%C i).
    rewrite mv_lin. rewrite (mv_ext_v n C11 _ (fun c => RtoC 1 * x c + RtoC 1 * vconj y c)%C) by (intros c _; unfold vconj; ring).
    rewrite mv_lin. transitivity ((mv n C11 x i + mv n C12 y i) + (mv n C12 (vconj x) i + mv n C11 (vconj y) i))%C; [ring|].
    rewrite H1, H2 by assumption. ring. }
  assert (HV: forall k, k < n -> (Ci * (x k - Cconj (y k)) = RtoC 0)%C).
  { apply (HI (fun k => Ci * (x k - Cconj (y k)))%C). intros i Hi.
    change (mv n C11 (fun c => Ci * (x c - Cconj (y c))) i + csum n (fun c => C12 i c * Cconj (Ci * (x c - Cconj (y c)))) = RtoC 0)%C.
    rewrite (csum_ext n _ (fun c => C12 i c * (- Ci * vconj x c + Ci * y c))%C) by (intros; unfold vconj; rewrite Cconj_mult, Cconj_minus, Cconj_invol, Cconj_Ci; ring).
    change (csum n (fun c => C12 i c * (- Ci * vconj x c + Ci * y c)))%C with (mv n C12 (fun c => - Ci * vconj x c + Ci * y c)%C i).
    rewrite mv_lin. rewrite (mv_ext_v n C11 _ (fun c => Ci * x c + - Ci * vconj y c)%C) by (intros c _; unfold vconj; ring).
    rewrite mv_lin. transitivity (Ci * (mv n C11 x i + mv n C12 y i) - Ci * (mv n C12 (vconj x) i + mv n C11 (vconj y) i))%C; [ring|].
    rewrite H1, H2 by assumption. ring. }
  assert (HXY: forall k, k < n -> x k = RtoC 0 /\ y k = RtoC 0).
  { intros k Hk. specialize (HU k Hk). specialize (HV k Hk). apply Cmult_integral in HV. destruct HV as [HV|HV]; [exfalso; exact (Ci_neq0 HV)|].
    assert (X1: (x k + x k = RtoC 0)%C) by (transitivity ((x k + Cconj (y k)) + (x k - Cconj (y k)))%C; [ring|rewrite HU, HV; ring]).
    assert (X2: x k = RtoC 0).
    { apply C_ext; [assert (Q := f_equal Re X1)|assert (Q := f_equal Im X1)]; autorewrite with reim in Q; autorewrite with reim; lra. }
    split; [exact X2|].
    apply Cconj_eq0. rewrite X2, Cplus_0_l in HU. exact HU. }
  intros j Hj. destruct (Nat.lt_ge_cases j n) as [H|H]; [apply (HXY j H)|].
  replace j with (n + (j - n)) by lia. apply (HXY (j - n)). lia.
Qed.

(** the two halves of the adjoint field are conjugate *)
Lemma adjoint_kerr n C11 C12 z b x' r :
  widely_injective n C11 C12 -> solves (2 * n) (mT (kerr_Cfull n C11 C12)) z (stack_conj n b) ->
  (forall i, i < n -> wl n C11 C12 x' i = r i) -> Re (dot n b x') = Re (dot n z r).
Proof.
  intros HI HZ HX. set (mu := fun k => z (n + k)).
  set (K := kerr_Cfull n C11 C12) in *.
  assert (HN: nonsingular (2 * n) (mT K)) by (apply nonsingular_mT, Cfull_nonsingular, HI).
  assert (HT: forall v i, mv (2 * n) (mT K) v i = mv (2 * n) (block2 n (mT C11) (mT (mconj C12)) (mT C12) (mT (mconj C11))) v i).
  { intros v i. unfold mv. apply csum_ext. intros k _. unfold K, kerr_Cfull. rewrite mT_block. reflexivity. }
  assert (HZl: forall i, i < n -> (mv n (mT C11) z i + mv n (mT (mconj C12)) mu i = b i)%C).
  { intros i Hi. refine (eq_trans (eq_sym (mv_block_lo n (mT C11) (mT (mconj C12)) (mT C12) (mT (mconj C11)) z i Hi)) _). rewrite <- HT.
    transitivity (stack_conj n b i); [apply HZ; lia|]. unfold stack_conj. rewrite (proj2 (Nat.ltb_lt i n)) by assumption. reflexivity. }
  assert (HZh: forall i, i < n -> (mv n (mT C12) z i + mv n (mT (mconj C11)) mu i = Cconj (b i))%C).
  { intros i Hi. refine (eq_trans (eq_sym (mv_block_hi n (mT C11) (mT (mconj C12)) (mT C12) (mT (mconj C11)) z i Hi)) _). rewrite <- HT.
    transitivity (stack_conj n b (n + i)); [apply HZ; lia|]. unfold stack_conj. rewrite (proj2 (Nat.ltb_ge (n + i) n)) by lia.
    replace (n + i - n) with i by lia. reflexivity. }
  assert (HMU: forall k, k < n -> mu k = Cconj (z k)).
  { assert (HS: solves (2 * n) (mT K) (stack2 n (vconj mu) (vconj z)) (stack_conj n b)).
    { intros i Hi. change (mv (2 * n) (mT K) (stack2 n (vconj mu) (vconj z)) i = stack_conj n b i). rewrite HT.
      destruct (Nat.lt_ge_cases i n) as [H|H].
      - rewrite mv_block_lo by assumption. unfold stack_conj. rewrite (proj2 (Nat.ltb_lt i n)) by assumption.
        rewrite (mv_ext_v n (mT C11) _ (vconj mu)) by (intros k Hk; apply stack2_lo; assumption).
        rewrite (mv_ext_v n (mT (mconj C12)) _ (vconj z)) by (intros k Hk; apply stack2_hi).
        rewrite <- (Cconj_invol (b i)), <- (HZh i H), Cconj_plus, !mv_conj.
        rewrite Cplus_comm. f_equal; apply csum_ext; intros k _; unfold mT, mconj; rewrite ?Cconj_invol; reflexivity.
      - replace i with (n + (i - n)) by lia. set (j := i - n). assert (Hj: j < n) by (unfold j; lia).
        rewrite mv_block_hi by assumption. unfold stack_conj. rewrite (proj2 (Nat.ltb_ge (n + j) n)) by lia. replace (n + j - n) with j by lia.
        rewrite (mv_ext_v n (mT C12) _ (vconj mu)) by (intros k Hk; apply stack2_lo; assumption).
        rewrite (mv_ext_v n (mT (mconj C11)) _ (vconj z)) by (intros k Hk; apply stack2_hi).
        rewrite <- (HZl j Hj), Cconj_plus, !mv_conj.
        rewrite Cplus_comm. f_equal; apply csum_ext; intros k _; unfold mT, mconj; rewrite ?Cconj_invol; reflexivity. }
    assert (HE := solves_unique _ _ _ _ _ HN HZ HS). intros k Hk. unfold mu. rewrite (HE (n + k)) by lia. apply stack2_hi. }
  assert (D1: dot n b x' = (dot n z (mv n C11 x') + dot n mu (mv n (mconj C12) x'))%C).
  { rewrite !dot_mT. unfold dot at 2 3. rewrite <- csum_plus. apply csum_ext. intros k Hk. rewrite <- (HZl k Hk). ring. }
  assert (D2: dot n z r = (dot n z (mv n C11 x') + dot n z (mv n C12 (vconj x')))%C).
  { unfold dot. rewrite <- csum_plus. apply csum_ext. intros k Hk. rewrite <- (HX k Hk). unfold wl. ring. }
  rewrite D1, D2, !Re_plus. f_equal. rewrite <- Re_conj. f_equal. unfold dot. rewrite Cconj_csum. apply csum_ext. intros k Hk.
  rewrite Cconj_mult, HMU, Cconj_invol, mv_conj by assumption. f_equal. unfold mv. apply csum_ext. intros j _. unfold mconj. rewrite Cconj_invol. reflexivity.
Qed.

(* ------------------------------------------------------------------ *)
(** ** Arguments of an objective in Ez polarization *)

(** the field an argument refers to, from the Ez field (linear or nonlinear) *)
Definition field_map (s : sim) (c : comp) (X : vec) : vec :=
  match c with
  | Hx => fst (derived_fields s (s_epsC s) false X)
  | Hy => snd (derived_fields s (s_epsC s) false X)
  | _ => X
  end.
(** linear Ez, Hx, Hy and nonlinear Ez *)
Definition Ez_arg (a : obj_arg) : Prop :=
  oa_gradient a = GRADIENT_MAP (oa_comp a) (oa_nl a) /\
  (if oa_nl a then oa_comp a = Ez else oa_comp a = Ez \/ oa_comp a = Hx \/ oa_comp a = Hy).

(** the stored nonlinear quantities are those of the nonlinear field E *)
Definition nl_current (s : sim) (E : vec) : Prop :=
  (exists An, s_Anl s = Some (s_M s, An) /\
     meq (s_M s) An (spdiags (fun k => RtoC (s_omega s ^ 2 * EPSILON_0 * s_L0 s * s_eps_nl (compute_nl E s) k)))) /\
  veq (s_M s) (s_dnl_de s) (s_dnl_de (compute_nl E s)).

(** Jacobian blocks at the field E *)
Definition kcoef (s : sim) : vec := fun k => RtoC (kap s * kerr_coef (s_nl s) k (nd_buf (s_eps s) k)).
Definition L11 (s : sim) (E : vec) : mat := mplus (s_A s) (mdiag (fun i => RtoC 2 * kcoef s i * (E i * Cconj (E i)))%C).
Definition L12 (s : sim) (E : vec) : mat := mdiag (fun i => kcoef s i * (E i * E i))%C.

Lemma nl_jac_L s E : s_pol s = PolEz -> meq (s_M s) (nl_jac11 s E) (L11 s E) /\ meq (s_M s) (nl_jac12 s E) (L12 s E).
Proof.
  intros _. split; intros i j Hi Hj.
  - unfold nl_jac11, L11. cbn [compute_nl upd_nlvals s_Anl s_dnl_de s_omega s_L0]. unfold mplus, spdiags, mdiag.
    match goal with |- context[s_A ?x i j] => change (s_A x i j) with (s_A s i j) end.
    destruct (Nat.eqb_spec i j) as [<-|]; [|ring]. rewrite sum_eps_nl_coef, sum_dnl_de_coef, Cmult_conj_r. unfold kcoef, kap.
    rewrite !RtoC_mult.
    replace (RtoC 2) with (RtoC 1 + RtoC 1)%C by (apply C_ext; autorewrite with reim; lra).
    transitivity (s_A s i i + (RtoC (s_omega s ^ 2) * RtoC EPSILON_0 * RtoC (s_L0 s) * RtoC (kerr_coef (s_nl s) i (nd_buf (s_eps s) i))) * (RtoC (Cnorm2 (E i)) + E i * Cconj (E i)))%C; [ring|].
    rewrite Cmult_conj_r. ring.
  - unfold nl_jac12, L12. cbn [compute_nl upd_nlvals s_dnl_de s_omega s_L0]. unfold spdiags, mdiag.
    destruct (Nat.eqb_spec i j) as [<-|]; [|reflexivity]. rewrite sum_dnl_de_coef, !Cconj_mult, !Cconj_RtoC, Cconj_invol. unfold kcoef, kap.
    rewrite !RtoC_mult. ring.
Qed.
Lemma wl_ext n A A' B B' : meq n A A' -> meq n B B' -> forall x i, i < n -> wl n A B x i = wl n A' B' x i.
Proof. intros HA HB x i Hi. unfold wl. f_equal; apply mv_ext; auto using veq_refl. Qed.
Lemma widely_injective_ext n A A' B B' : meq n A A' -> meq n B B' -> widely_injective n A B -> widely_injective n A' B'.
Proof.
  intros HA HB H x Hx. apply H. intros r Hr. transitivity (wl n A B x r); [reflexivity|].
  rewrite (wl_ext n A A' B B') by assumption. exact (Hx r Hr).
Qed.

(** what the gradient of an argument needs of the simulation *)
Definition arg_ready (s : sim) (a : obj_arg) : Prop :=
  if oa_nl a then exists E, s_fields_nl s Ez = Some E /\ nl_current s E /\ widely_injective (s_M s) (L11 s E) (L12 s E)
  else exists E, s_fields s Ez = Some E /\ nonsingular (s_M s) (s_A s).

(** x' is the first-order response of the argument's Ez field to the change dl of the
    permittivity *)
Definition response (s : sim) (a : obj_arg) (dl : rvec) (x' : vec) : Prop :=
  if oa_nl a then forall E, s_fields_nl s Ez = Some E -> forall i, i < s_M s ->
    wl (s_M s) (L11 s E) (L12 s E) x' i = (- (RtoC (kap s * dl i) * (RtoC (1 + s_dnl_deps (compute_nl E s) i) * E i)))%C
  else forall E, s_fields s Ez = Some E -> forall i, i < s_M s ->
    mv (s_M s) (s_A s) x' i = (- (RtoC (kap s * dl i) * E i))%C.

(** states met in the loop over the arguments *)
Definition loop_state (s s' : sim) : Prop :=
  s' = s \/ exists E, s_fields_nl s Ez = Some E /\ s' = compute_nl E s.

(** projection factor of the chain rule *)
Definition projf (o : opt) (s : sim) (rho : rvec) : rvec := fun j =>
  ((o_eps_m o - 1) * drhob_drhot (rho2rhot (s_M s) rho (o_W o) j) (o_eta o) (o_beta o))%R.

Lemma sensitivity_Re M o rho E (dA : rvec) aj (q : rvec) i :
  Re (sensitivity M o rho E (fun j => o_design o j * q j)%R aj i) =
  rsum M (fun j => o_W o i j * o_design o j * ((o_eps_m o - 1) * drhob_drhot (rho2rhot M rho (o_W o) j) (o_eta o) (o_beta o)) * Re (RtoC (q j) * E j * aj j)%C)%R.
Proof.
  unfold sensitivity. rewrite Re_csum. apply rsum_ext. intros j _.
  set (pr := drhob_drhot _ _ _).
  replace (RtoC (o_eps_m o - 1) * (RtoC (o_W o i j) * (E j * RtoC pr * RtoC (o_design o j * q j))) * aj j)%C
    with (RtoC (o_W o i j * o_design o j * ((o_eps_m o - 1) * pr)) * (RtoC (q j) * E j * aj j))%C by (rewrite !RtoC_mult; ring).
  rewrite Re_RtoC_mult. reflexivity.
Qed.

Lemma dAdeps_lin_form o s j : dAdeps_lin o s j = (o_design o j * kap s)%R.
Proof. unfold dAdeps_lin, kap. ring. Qed.
Lemma dAdeps_kerr_form o s j : dAdeps_kerr o s j = (o_design o j * (kap s * (1 + s_dnl_deps s j)))%R.
Proof. unfold dAdeps_kerr, dAdeps_lin, kap. ring. Qed.
Lemma sensitivity_ext M o rho E dA dA' aj aj' i : (forall j, j < M -> dA j = dA' j) -> veq M aj aj' ->
  sensitivity M o rho E dA aj i = sensitivity M o rho E dA' aj' i.
Proof. intros H H2. unfold sensitivity. apply csum_ext. intros j Hj. rewrite H, H2 by assumption. reflexivity. Qed.

(** adjoint sources are transposes of the field maps *)
Lemma source_transpose s c g X : s_pol s = PolEz -> (c = Ez \/ c = Hx \/ c = Hy) ->
  dot (s_M s) g (field_map s c X) =
  (- dot (s_M s) (match c with Hx => b_aj_Hx s (vneg g) | Hy => b_aj_Hy s (vneg g) | _ => vneg g end) X)%C.
Proof.
  intros Hpol Hc. unfold field_map, derived_fields. rewrite Hpol. cbv zeta. cbn [fst snd].
  assert (HT: forall cc A, dot (s_M s) g (vscal cc (mv (s_M s) A X)) = (- dot (s_M s) (vscal cc (mv (s_M s) (mT A) (vneg g))) X)%C).
  { intros cc A. transitivity (cc * dot (s_M s) g (mv (s_M s) A X))%C.
    - unfold dot, vscal. rewrite <- csum_scal. apply csum_ext. intros; ring.
    - rewrite dot_mT. unfold dot. rewrite <- csum_scal, <- csum_opp. apply csum_ext. intros k _. unfold vscal.
      unfold mv at 2. rewrite (csum_ext _ (fun j => mT A k j * vneg g j)%C (fun j => - (mT A k j * g j))%C) by (intros; unfold vneg; ring).
      rewrite csum_opp. unfold mv. ring. }
  destruct Hc as [->|[->| ->]].
  - unfold dot. rewrite <- csum_opp. apply csum_ext. intros; unfold vneg; ring.
  - unfold b_aj_Hx. apply HT.
  - unfold b_aj_Hy. apply HT.
Qed.

Lemma loop_facts s s' : loop_state s s' -> s_M s' = s_M s /\ s_A s' = s_A s /\ s_pol s' = s_pol s /\ s_fields s' = s_fields s /\
  s_fields_nl s' = s_fields_nl s /\ s_rho s' = s_rho s /\ kap s' = kap s /\ s_omega s' = s_omega s /\ s_derivs s' = s_derivs s /\ s_L0 s' = s_L0 s /\ s_nl s' = s_nl s /\ s_eps s' = s_eps s.
Proof. intros [->|(E & _ & ->)]; repeat split; reflexivity. Qed.
Lemma loop_ready s s' a : loop_state s s' -> arg_ready s a -> arg_ready s' a.
Proof.
  intros [->|(E & HE & ->)] H; [exact H|]. unfold arg_ready in *. destruct (oa_nl a); [|exact H].
  destruct H as (E' & H1 & H2 & H3). rewrite H1 in HE. injection HE as <-. exists E'. split; [exact H1|]. split; [|exact H3].
  split; [|intros k _; reflexivity]. eexists. split; [reflexivity|]. apply meq_refl.
Qed.
Lemma loop_response s s' a dl x' : loop_state s s' -> response s a dl x' -> response s' a dl x'.
Proof. intros [->|(E & HE & ->)] H; exact H. Qed.
Lemma kerr_blocks s E An : nl_current s E -> s_Anl s = Some (s_M s, An) ->
  meq (s_M s) (kerr_C11 s An E) (L11 s E) /\ meq (s_M s) (kerr_C12 s E) (L12 s E).
Proof.
  intros ((An' & H1 & H2) & H3) HA. rewrite HA in H1. injection H1 as <-.
  split; intros i j Hi Hj.
  - unfold kerr_C11, L11. unfold mplus at 1 2 3. rewrite (H2 i j Hi Hj). unfold spdiags, mdiag.
    destruct (Nat.eqb_spec i j) as [<-|]; [|ring]. unfold kerr_dAde. rewrite (H3 i Hi).
    cbn [compute_nl upd_nlvals s_eps_nl s_dnl_de]. rewrite sum_eps_nl_coef, sum_dnl_de_coef. unfold kcoef, kap. rewrite !RtoC_mult.
    replace (RtoC 2) with (RtoC 1 + RtoC 1)%C by (apply C_ext; autorewrite with reim; lra).
    rewrite Cmult_conj_r. rewrite <- !Cplus_assoc. f_equal.
    transitivity ((RtoC (s_omega s ^ 2) * RtoC EPSILON_0 * RtoC (s_L0 s) * RtoC (kerr_coef (s_nl s) i (nd_buf (s_eps s) i))) * (RtoC (Cnorm2 (E i)) + E i * Cconj (E i)))%C; [ring|].
    rewrite Cmult_conj_r. ring.
  - unfold kerr_C12, L12, spdiags, mdiag. destruct (Nat.eqb_spec i j) as [<-|]; [|reflexivity]. unfold kerr_dAde. rewrite (H3 i Hi).
    cbn [compute_nl upd_nlvals s_dnl_de]. rewrite sum_dnl_de_coef, !Cconj_mult, !Cconj_RtoC, Cconj_invol. unfold kcoef, kap. rewrite !RtoC_mult. ring.
Qed.

(** one argument of the loop *)
Lemma run_grad_contribution e o s s' rho a (dJ : list vec -> res vec) g args F :
  solver_exact e -> s_pol s = PolEz -> s_rho s = Val rho -> Ez_arg a -> arg_ready s a -> loop_state s s' -> dJ args = Ok g ->
  F = (if oa_nl a then s_fields_nl s' (pol_comp (s_pol s')) else s_fields s' (pol_comp (s_pol s'))) ->
  exists s'' gr st, run_grad e (oa_gradient a) o dJ F args s' = (s'', Ok gr) /\ loop_state s s'' /\
    (forall i, gr i = rsum (s_M s) (fun j => o_W o i j * o_design o j * projf o s rho j * st j)%R) /\
    forall dl x', response s a dl x' ->
      (Re (dot (s_M s) g (field_map s (oa_comp a) x')) = rsum (s_M s) (fun j => dl j * st j))%R.
Proof.
  intros He Hpol Hrho [Hg Hc] Hr HS HJ ->. assert (Hr' := loop_ready s s' a HS Hr).
  destruct (loop_facts s s' HS) as (EM & EA & Ep & Ef & Efn & Er & Ek & Eo & Ed & EL & En & Ee).
  rewrite Hg. unfold arg_ready in Hr, Hr'. rewrite Ep, Hpol. cbn [pol_comp].
  destruct (oa_nl a) eqn:Enl.
  - (* nonlinear Ez *)
    rewrite Hc. cbn [GRADIENT_MAP run_grad]. destruct Hr' as (E & HE & HC & HI). rewrite HE.
    unfold g_kerr_Ez. rewrite HJ. unfold adjoint_kerr_Ez. destruct HC as (HC1 & HC2). assert (HC: nl_current s' E) by (split; assumption).
    destruct HC1 as (An & HA & HA2). rewrite HA, Nat.eqb_refl, HE. cbn [negb].
    destruct (kerr_blocks s' E An HC HA) as [B1 B2].
    destruct (solver_direct_default_ok e (2 * s_M s') (mT (kerr_Cfull (s_M s') (kerr_C11 s' An E) (kerr_C12 s' E))) (stack_conj (s_M s') (vneg g))) as [z Hz].
    rewrite Hz. assert (HI2: widely_injective (s_M s') (kerr_C11 s' An E) (kerr_C12 s' E)).
    { eapply widely_injective_ext; [apply meq_sym, B1|apply meq_sym, B2|exact HI]. }
    assert (Hz2 := solver_direct_correct _ _ _ _ _ _ He (nonsingular_mT _ _ (Cfull_nonsingular _ _ _ HI2)) Hz).
    change (get_rho (compute_nl E s')) with (get_rho s'). unfold get_rho. rewrite Er, Hrho. cbn [rbind].
    set (nlf := s_dnl_deps (compute_nl E s')).
    exists (compute_nl E s'). eexists. exists (fun j => Re (RtoC (kap s * (1 + nlf j)) * E j * z j)%C). split; [reflexivity|].
    assert (HE0: s_fields_nl s Ez = Some E) by (rewrite <- Efn; exact HE).
    split; [right; exists E; split; [exact HE0|]; destruct HS as [->|(E2 & HE2 & ->)]; reflexivity|]. split.
    + intro i. change (s_M (compute_nl E s')) with (s_M s'). rewrite EM.
      rewrite (sensitivity_ext _ _ _ _ _ (fun j => o_design o j * (kap s * (1 + nlf j)))%R z z i).
      * rewrite (sensitivity_Re _ _ _ _ (fun _ => 0%R)). apply rsum_ext. intros j _. unfold projf. reflexivity.
      * intros j _. rewrite dAdeps_kerr_form. change (kap (compute_nl E s')) with (kap s'). rewrite Ek. reflexivity.
      * apply veq_refl.
    + intros dl x' HR. apply (loop_response s s' a dl x' HS) in HR. unfold response in HR. rewrite Enl in HR. specialize (HR E HE).
      unfold field_map.
      assert (HX: forall i, i < s_M s' -> wl (s_M s') (kerr_C11 s' An E) (kerr_C12 s' E) x' i = (- (RtoC (kap s' * dl i) * (RtoC (1 + nlf i) * E i)))%C).
      { intros i Hi. rewrite (wl_ext _ _ _ _ _ B1 B2) by assumption. apply HR; assumption. }
      assert (HAJ := adjoint_kerr _ _ _ _ _ _ _ HI2 Hz2 HX). rewrite EM in HAJ.
      assert (HN: Re (dot (s_M s) g x') = (- Re (dot (s_M s) (vneg g) x'))%R).
      { rewrite <- Re_opp. f_equal. unfold dot. rewrite <- csum_opp. apply csum_ext. intros; unfold vneg; ring. }
      rewrite HN, HAJ. unfold dot. rewrite Re_csum, <- rsum_opp. apply rsum_ext. intros j _. rewrite <- Re_opp, <- Re_RtoC_mult. f_equal. rewrite Ek.
      rewrite !RtoC_mult. ring.
  - (* linear fields *)
    destruct Hr' as (E & HE & HN). rewrite HE.
    set (b := match oa_comp a with Hx => b_aj_Hx s' (vneg g) | Hy => b_aj_Hy s' (vneg g) | _ => vneg g end).
    assert (HRun: run_grad e (GRADIENT_MAP (oa_comp a) false) o dJ (Some E) args s' = (s', finish_linear_Ez e o s' (Some E) b)).
    { unfold b. destruct Hc as [->|[->| ->]]; cbn [GRADIENT_MAP run_grad]; unfold g_linear_Ez, g_linear_Hxy; rewrite HJ; reflexivity. }
    rewrite HRun. unfold finish_linear_Ez, adjoint_linear_Ez.
    destruct (solver_direct_default_ok e (s_M s') (mT (s_A s')) b) as [z Hz]. rewrite Hz. cbn [rbind].
    assert (Hz2 := solver_direct_correct _ _ _ _ _ _ He (nonsingular_mT _ _ HN) Hz).
    unfold get_rho. rewrite Er, Hrho. cbn [rbind].
    exists s'. eexists. exists (fun j => Re (RtoC (kap s) * E j * z j)%C). split; [reflexivity|]. split; [exact HS|]. split.
    + intro i. rewrite EM. rewrite (sensitivity_ext _ _ _ _ _ (fun j => o_design o j * kap s)%R z z i).
      * rewrite (sensitivity_Re _ _ _ _ (fun _ => 0%R) _ (fun _ => kap s)). apply rsum_ext. intros j _. unfold projf. reflexivity.
      * intros j _. rewrite dAdeps_lin_form, Ek. reflexivity.
      * apply veq_refl.
    + intros dl x' HR. apply (loop_response s s' a dl x' HS) in HR. unfold response in HR. rewrite Enl in HR. specialize (HR E HE).
      assert (HAJ := adjoint_linear _ _ _ _ _ _ _ _ Hz2 HR).
      rewrite source_transpose by assumption. rewrite Re_opp, <- Ek, <- EM. rewrite <- HAJ. unfold b. unfold b_aj_Hx, b_aj_Hy.
      rewrite EM, Eo, EL, Ed. reflexivity.
Qed.

(** the whole loop *)
Lemma grad_loop_spec e o s rho J args : solver_exact e -> s_pol s = PolEz -> s_rho s = Val rho ->
  List.length args = pf_arity J ->
  forall l i acc s', List.Forall Ez_arg l -> List.Forall (arg_ready s) l -> loop_state s s' -> stored_args o = args ->
  exists s'' gr st,
    grad_loop e o (List.combine (List.combine (List.map oa_gradient l) (List.map (fun i => pf_dcall J i) (List.seq i (List.length l)))) l) acc s' = (s'', Ok gr) /\
    loop_state s s'' /\
    (forall p, gr p = acc p + rsum (List.length l) (fun q => rsum (s_M s) (fun j => o_W o p j * o_design o j * projf o s rho j * st q j)))%R /\
    forall q, q < List.length l -> forall dl x', response s (List.nth q l (mkArg Ez false grad_linear_Ez)) dl x' ->
      (Re (dot (s_M s) (pf_grad J (i + q) args) (field_map s (oa_comp (List.nth q l (mkArg Ez false grad_linear_Ez))) x'))
       = rsum (s_M s) (fun j => dl j * st q j))%R.
Proof.
  intros He Hpol Hrho HL l. induction l as [|a l IH]; intros i acc s' H1 H2 HS HA.
  - exists s', acc, (fun _ _ => 0%R). split; [reflexivity|]. split; [exact HS|]. split; [intro p; simpl; ring|]. intros q Hq. simpl in Hq. lia.
  - inversion H1 as [|? ? Ha Hl]; subst. inversion H2 as [|? ? Ra Rl]; subst.
    cbn [List.map List.length List.seq List.combine grad_loop].
    assert (HJ: pf_dcall J i (stored_args o) = Ok (pf_grad J i (stored_args o))) by (unfold pf_dcall; rewrite HL, Nat.eqb_refl; reflexivity).
    destruct (run_grad_contribution e o s s' rho a (pf_dcall J i) _ (stored_args o) _ He Hpol Hrho Ha Ra HS HJ eq_refl) as (s1 & g1 & st1 & E1 & S1 & G1 & R1).
    rewrite E1. destruct (IH (S i) (fun k => acc k + g1 k)%R s1 Hl Rl S1 eq_refl) as (s2 & g2 & st2 & E2 & S2 & G2 & R2).
    exists s2, g2, (fun q => match q with O => st1 | S q' => st2 q' end). split; [exact E2|]. split; [exact S2|]. split.
    + intro p. rewrite G2, G1. rewrite (rsum_S_first (List.length l)). ring.
    + intros [|q] Hq dl x' HR; cbn [List.nth].
      * rewrite Nat.add_0_r. apply R1. exact HR.
      * replace (i + S q) with (S i + q) by lia. apply R2; [simpl in Hq; lia|exact HR].
Qed.

(* ------------------------------------------------------------------ *)
(** ** The derivative of the objective along one density *)
Lemma kerr_coef_affine l k e1 e2 : (kerr_coef l k e2 = kerr_coef l k e1 + kerr_dcoef l k * (e2 - e1))%R.
Proof.
  unfold kerr_coef, kerr_dcoef. induction l as [|q l IH]; simpl; [ring|]. rewrite IH. unfold nl_scale.
  destruct (nl_eps_scale q); unfold Rdiv; ring.
Qed.
Lemma field_map_vdiff s c (X : R -> vec) x0 x' : s_pol s = PolEz ->
  vdiff0 (s_M s) (fun t => vminus (X t) x0) x' ->
  vdiff0 (s_M s) (fun t => vminus (field_map s c (X t)) (field_map s c x0)) (field_map s c x').
Proof.
  intros Hpol H.
  assert (HT: forall a A, vdiff0 (s_M s) (fun t => vminus (vscal a (mv (s_M s) A (X t))) (vscal a (mv (s_M s) A x0))) (vscal a (mv (s_M s) A x'))).
  { intros a A. apply (vdiff0_ext _ (fun t => vscal a (mv (s_M s) A (vminus (X t) x0))) _ (vscal a (mv (s_M s) A x'))).
    - intros t k _. unfold vscal. rewrite mv_vminus. unfold vminus. ring.
    - apply veq_refl.
    - apply (vdiff0_scal _ a (fun t => mv (s_M s) A (vminus (X t) x0))). apply vdiff0_mv. exact H. }
  unfold field_map, derived_fields. rewrite Hpol. cbv zeta. cbn [fst snd]. destruct c; try exact H; apply HT.
Qed.
Lemma field_map_veq s c X Y : s_pol s = PolEz -> veq (s_M s) X Y -> veq (s_M s) (field_map s c X) (field_map s c Y).
Proof.
  intros Hpol H. unfold field_map, derived_fields. rewrite Hpol. cbv zeta. cbn [fst snd].
  destruct c; try exact H; intros k Hk; unfold vscal; f_equal; apply mv_ext_v, H.
Qed.

(** permittivity of the density in pixel p changed by t, minus the current one *)
Definition deps (o : opt) (s : sim) (rho : rvec) (p : nat) (t : R) : rvec := fun k =>
  (rho2eps (s_M s) (rho_at rho p t) (o_eps_m o) (o_W o) (o_eta o) (o_beta o) k - nd_buf (s_eps s) k)%R.
Definition deps' (o : opt) (s : sim) (rho : rvec) (p : nat) : rvec := fun k => (projf o s rho k * o_W o k p)%R.
Definition in_step (o : opt) (s : sim) (rho : rvec) : Prop :=
  forall k, k < s_M s -> nd_buf (s_eps s) k = rho2eps (s_M s) rho (o_eps_m o) (o_W o) (o_eta o) (o_beta o) k.
Definition proj_ok (o : opt) : Prop := (tanh (o_beta o * o_eta o) + tanh (o_beta o * (1 - o_eta o)) <> 0)%R.

Lemma deps_diff o s rho p (a : rvec) : proj_ok o -> in_step o s rho -> p < s_M s ->
  vdiff0 (s_M s) (fun t k => RtoC (a k * deps o s rho p t k)) (fun k => RtoC (a k * deps' o s rho p k)).
Proof.
  intros HP HS Hp.
  apply (vdiff0_ext _ (fun t k => RtoC (a k * rho2eps (s_M s) (rho_at rho p t) (o_eps_m o) (o_W o) (o_eta o) (o_beta o) k
        - a k * rho2eps (s_M s) (rho_at rho p 0%R) (o_eps_m o) (o_W o) (o_eta o) (o_beta o) k))%R _
      (fun k => RtoC (a k * deps' o s rho p k))).
  - intros t k Hk. f_equal. unfold deps. rewrite (HS k Hk), rho2eps_at_0. ring.
  - apply veq_refl.
  - apply (vdiff0_comp _ (fun k t => a k * rho2eps (s_M s) (rho_at rho p t) (o_eps_m o) (o_W o) (o_eta o) (o_beta o) k)%R (fun k => a k * deps' o s rho p k)%R).
    intros k _. apply (is_derive_scal (fun t => rho2eps (s_M s) (rho_at rho p t) (o_eps_m o) (o_W o) (o_eta o) (o_beta o) k)).
    unfold deps', projf. apply eps_at_derive; assumption.
Qed.

(** the same along the line of densities rho + t d *)
Definition ddeps (o : opt) (s : sim) (rho d : rvec) (t : R) : rvec := fun k =>
  (rho2eps (s_M s) (rho_dir rho d t) (o_eps_m o) (o_W o) (o_eta o) (o_beta o) k - nd_buf (s_eps s) k)%R.
Definition ddeps' (o : opt) (s : sim) (rho d : rvec) : rvec := fun k => (projf o s rho k * rmv (s_M s) (o_W o) d k)%R.
Lemma ddeps_diff o s rho d (a : rvec) : proj_ok o -> in_step o s rho ->
  vdiff0 (s_M s) (fun t k => RtoC (a k * ddeps o s rho d t k)) (fun k => RtoC (a k * ddeps' o s rho d k)).
Proof.
  intros HP HS.
  apply (vdiff0_ext _ (fun t k => RtoC (a k * rho2eps (s_M s) (rho_dir rho d t) (o_eps_m o) (o_W o) (o_eta o) (o_beta o) k
        - a k * rho2eps (s_M s) (rho_dir rho d 0%R) (o_eps_m o) (o_W o) (o_eta o) (o_beta o) k))%R _
      (fun k => RtoC (a k * ddeps' o s rho d k))).
  - intros t k Hk. f_equal. unfold ddeps. rewrite (HS k Hk), rho_dir_0. ring.
  - apply veq_refl.
  - apply (vdiff0_comp _ (fun k t => a k * rho2eps (s_M s) (rho_dir rho d t) (o_eps_m o) (o_W o) (o_eta o) (o_beta o) k)%R (fun k => a k * ddeps' o s rho d k)%R).
    intros k _. apply (is_derive_scal (fun t => rho2eps (s_M s) (rho_dir rho d t) (o_eps_m o) (o_W o) (o_eta o) (o_beta o) k)).
    unfold ddeps', projf. apply eps_dir_derive; assumption.
Qed.

Definition arg_field (s : sim) (a : obj_arg) : option vec := if oa_nl a then s_fields_nl s Ez else s_fields s Ez.
(** X t is a branch of exact solutions for the argument's problem (linear or nonlinear) *)
Definition dbranch (o : opt) (s : sim) (rho d : rvec) (nl : bool) (X : R -> vec) : Prop :=
  exists delta0, (0 < delta0)%R /\
  if nl then
    (forall t, (Rabs t < delta0)%R -> nonlinear_solution (with_density o s (rho_dir rho d t)) (X t)) /\
    vsmall0 (s_M s) (fun t => vminus (X t) (X 0%R))
  else forall t, (Rabs t < delta0)%R -> solves (s_M s) (s_A (with_density o s (rho_dir rho d t))) (X t) (rhs s).

Lemma dbranch_response o s rho d a X : s_pol s = PolEz -> consistent s -> proj_ok o -> in_step o s rho ->
  arg_ready s a -> dbranch o s rho d (oa_nl a) X -> (forall E, arg_field s a = Some E -> veq (s_M s) (X 0%R) E) ->
  exists x', response s a (ddeps' o s rho d) x' /\ vdiff0 (s_M s) (fun t => vminus (X t) (X 0%R)) x'.
Proof.
  intros Hpol HC HP HS HR (d0 & Hd0 & HB) H0. unfold arg_ready, arg_field, response in *.
  assert (HA: forall t, (forall Y k, k < s_M s -> mv (s_M s) (s_A (with_density o s (rho_dir rho d t))) Y k =
     (mv (s_M s) (s_A s) Y k + RtoC (kap s * ddeps o s rho d t k) * Y k)%C)).
  { intros t Y k Hk. apply (with_density_A o s (rho_dir rho d t) Hpol HC); assumption. }
  assert (HD := ddeps_diff o s rho d (fun _ => kap s) HP HS).
  destruct (oa_nl a) eqn:En.
  - destruct HR as (E & HE & _ & HI). specialize (H0 E HE). destruct HB as [HB Hcont].
    assert (HDc := ddeps_diff o s rho d (fun k => kap s * kerr_dcoef (s_nl s) k)%R HP HS).
    destruct (kerr_solution_diff (s_M s) (s_A s) (rhs s) (kcoef s) (fun t k => RtoC (kap s * ddeps o s rho d t k))
       (fun t k => RtoC (kap s * kerr_dcoef (s_nl s) k * ddeps o s rho d t k)) (fun k => RtoC (kap s * ddeps' o s rho d k)) (fun k => RtoC (kap s * kerr_dcoef (s_nl s) k * ddeps' o s rho d k)) X d0) as (x' & H1 & H2).
    + eapply widely_injective_ext; [| |exact HI]; intros i j Hi Hj; unfold L11, L12, mplus, mdiag; destruct (Nat.eqb i j); try reflexivity; rewrite !(H0 i Hi); reflexivity.
    + exact HD.
    + exact HDc.
    + exact Hd0.
    + exact Hcont.
    + intros t Ht i Hi. specialize (HB t Ht i Hi). unfold rhs.
      change (csum (s_M (with_density o s (rho_dir rho d t))) (fun c => s_A (with_density o s (rho_dir rho d t)) i c * X t c)%C)
        with (mv (s_M s) (s_A (with_density o s (rho_dir rho d t))) (X t) i) in HB. rewrite HA in HB by assumption.
      cbn [compute_nl upd_nlvals s_eps_nl] in HB. rewrite sum_eps_nl_coef in HB. etransitivity; [|exact HB].
      rewrite (kerr_coef_affine _ i (nd_buf (s_eps s) i)). change (nd_buf (s_eps (with_density o s (rho_dir rho d t))) i - nd_buf (s_eps s) i)%R with (ddeps o s rho d t i).
      unfold kcoef, kf, kap. change (s_nl (with_density o s (rho_dir rho d t))) with (s_nl s). change (s_omega (with_density o s (rho_dir rho d t))) with (s_omega s).
      change (s_L0 (with_density o s (rho_dir rho d t))) with (s_L0 s). rewrite <- !Cplus_assoc. f_equal. f_equal.
      replace (X t i * X t i * Cconj (X t i))%C with (RtoC (Cnorm2 (X t i)) * X t i)%C by (rewrite <- Cmult_conj_r; ring).
      rewrite !RtoC_mult, !RtoC_plus, !RtoC_mult. ring.
    + exists x'. split; [|exact H2]. intros E' HE' i Hi. rewrite HE in HE'. injection HE' as <-.
      etransitivity; [|etransitivity; [apply (H1 i Hi)|]].
      * apply wl_ext; [| |exact Hi]; intros i' j Hi' Hj; unfold L11, L12, mplus, mdiag; destruct (Nat.eqb i' j); try reflexivity; rewrite !(H0 i' Hi'); reflexivity.
      * rewrite (H0 i Hi). cbn [compute_nl upd_nlvals s_dnl_deps]. rewrite sum_dnl_deps_coef. unfold kf.
        replace (E i * E i * Cconj (E i))%C with (RtoC (Cnorm2 (E i)) * E i)%C by (rewrite <- Cmult_conj_r; ring).
        rewrite !RtoC_plus, !RtoC_mult. ring.
  - destruct HR as (E & HE & HN). specialize (H0 E HE).
    destruct (linear_solution_diff (s_M s) (s_A s) (rhs s) (fun t k => RtoC (kap s * ddeps o s rho d t k)) _ X d0 HN HD Hd0) as (x' & H1 & H2).
    + intros t Ht i Hi. rewrite <- (HA t (X t) i Hi). exact (HB t Ht i Hi).
    + exists x'. split; [|exact H2]. intros E' HE' i Hi. rewrite HE in HE'. injection HE' as <-. rewrite (H1 i Hi), (H0 i Hi). reflexivity.
Qed.

Lemma nth_map_arg {T} (f : obj_arg -> T) l q d d' : q < List.length l -> List.nth q (List.map f l) d = f (List.nth q l d').
Proof. intro H. rewrite (nth_indep _ d (f d')) by (rewrite map_length; exact H). apply map_nth. Qed.

Theorem adjoint_main_dir e o s rho J args :
  solver_exact e -> s_pol s = PolEz -> consistent s -> s_rho s = Val rho -> proj_ok o -> in_step o s rho ->
  o_objective o = set_J J args -> List.length args = pf_arity J -> List.Forall Ez_arg args -> List.Forall (arg_ready s) args ->
  List.length (stored_args o) = List.length args ->
  (forall q, q < List.length args -> forall E, arg_field s (List.nth q args (mkArg Ez false grad_linear_Ez)) = Some E ->
     veq (s_M s) (List.nth q (stored_args o) vzero) (field_map s (oa_comp (List.nth q args (mkArg Ez false grad_linear_Ez))) E)) ->
  is_gradient (s_M s) (pf_val J) (stored_args o) (fun i => pf_grad J i (stored_args o)) ->
  exists s'' gr Sn,
    grad_loop e o (List.combine (List.combine (ob_grads (o_objective o)) (ob_dJ (o_objective o))) (ob_args (o_objective o))) (fun _ => 0%R) s = (s'', Ok gr) /\
    loop_state s s'' /\
    (forall p, gr p = rsum (s_M s) (fun j => o_W o p j * o_design o j * Sn j)%R) /\
    forall (d : rvec) (X : bool -> R -> vec),
      (forall q, q < List.length args -> let a := List.nth q args (mkArg Ez false grad_linear_Ez) in
         dbranch o s rho d (oa_nl a) (X (oa_nl a)) /\ forall E, arg_field s a = Some E -> veq (s_M s) (X (oa_nl a) 0%R) E) ->
      is_derive (fun t => pf_val J (List.map (fun a => field_map s (oa_comp a) (X (oa_nl a) t)) args)) 0%R
        (rsum (s_M s) (fun j => rmv (s_M s) (o_W o) d j * Sn j)%R).
Proof.
  intros He Hpol HC Hrho HP HS Hob HL HA HR HLs HF HG. set (da := mkArg Ez false grad_linear_Ez) in *.
  destruct (grad_loop_spec e o s rho J (stored_args o) He Hpol Hrho ltac:(congruence) args 0 (fun _ => 0%R) s HA HR (or_introl eq_refl) eq_refl)
    as (s'' & gr & st & E1 & E2 & E3 & E4). fold da in E4.
  exists s'', gr, (fun j => projf o s rho j * rsum (List.length args) (fun q => st q j))%R.
  rewrite Hob. cbn [set_J ob_grads ob_dJ ob_args]. rewrite <- HL. split; [exact E1|]. split; [exact E2|]. split.
  - intro p. rewrite E3, Rplus_0_l, rsum_swap. apply rsum_ext. intros j _. rewrite <- (rsum_scal (List.length args)), <- rsum_scal. apply rsum_ext. intros; ring.
  - intros d X HX.
    destruct (finite_choice (d := RtoC 0) (List.length args) (fun q (x' : vec) => response s (List.nth q args da) (ddeps' o s rho d) x' /\
        vdiff0 (s_M s) (fun t => vminus (X (oa_nl (List.nth q args da)) t) (X (oa_nl (List.nth q args da)) 0%R)) x')) as (xs & Hxs).
    { intros q Hq. destruct (HX q Hq) as [B1 B2].
      apply (dbranch_response o s rho d (List.nth q args da) _ Hpol HC HP HS); [|exact B1|exact B2].
      apply (proj1 (Forall_forall _ _) HR), nth_In, Hq. }
    assert (HDv := objective_derive (s_M s) (pf_val J) (stored_args o) (fun i => pf_grad J i (stored_args o))
       (fun t => List.map (fun a => field_map s (oa_comp a) (X (oa_nl a) t)) args) (fun q => field_map s (oa_comp (List.nth q args da)) (xs q)) HG).
    evar_last; [apply HDv|].
    + intro t. rewrite map_length. congruence.
    + intros q Hq. rewrite HLs in Hq. destruct (HX q Hq) as [B1 B2]. destruct (Hxs q Hq) as [X1 X2].
      eapply vdiff0_ext; [| |apply (field_map_vdiff s (oa_comp (List.nth q args da)) _ _ _ Hpol X2)]; [|apply veq_refl].
      intros t k Hk. unfold vminus. rewrite (nth_map_arg _ args q vzero da Hq). f_equal. f_equal.
      assert (HR1: arg_ready s (List.nth q args da)) by (apply (proj1 (Forall_forall _ _) HR), nth_In, Hq).
      assert (HE: exists E, arg_field s (List.nth q args da) = Some E).
      { unfold arg_ready in HR1. unfold arg_field. destruct (oa_nl (List.nth q args da)); destruct HR1 as (E & HE & _); exists E; exact HE. }
      destruct HE as [E HE]. rewrite (HF q Hq E HE k Hk). apply field_map_veq; [exact Hpol|exact (B2 E HE)|exact Hk].
    + rewrite HLs. transitivity (rsum (List.length args) (fun q => rsum (s_M s) (fun j => ddeps' o s rho d j * st q j)))%R.
      * apply rsum_ext. intros q Hq. apply (E4 q Hq). apply (Hxs q Hq).
      * rewrite rsum_swap. apply rsum_ext. intros j _. rewrite rsum_scal. unfold ddeps'. ring.
Qed.

(** the same with one density varied *)
Definition branch (o : opt) (s : sim) (rho : rvec) (p : nat) (nl : bool) (X : R -> vec) : Prop :=
  exists delta0, (0 < delta0)%R /\
  if nl then
    (forall t, (Rabs t < delta0)%R -> nonlinear_solution (with_density o s (rho_at rho p t)) (X t)) /\
    vsmall0 (s_M s) (fun t => vminus (X t) (X 0%R))
  else forall t, (Rabs t < delta0)%R -> solves (s_M s) (s_A (with_density o s (rho_at rho p t))) (X t) (rhs s).
Lemma branch_dbranch o s rho p nl X : branch o s rho p nl X -> dbranch o s rho (unitv p) nl X.
Proof. unfold branch, dbranch. rewrite rho_at_dir. auto. Qed.
Theorem adjoint_main e o s rho J args :
  solver_exact e -> s_pol s = PolEz -> consistent s -> s_rho s = Val rho -> proj_ok o -> in_step o s rho ->
  o_objective o = set_J J args -> List.length args = pf_arity J -> List.Forall Ez_arg args -> List.Forall (arg_ready s) args ->
  List.length (stored_args o) = List.length args ->
  (forall q, q < List.length args -> forall E, arg_field s (List.nth q args (mkArg Ez false grad_linear_Ez)) = Some E ->
     veq (s_M s) (List.nth q (stored_args o) vzero) (field_map s (oa_comp (List.nth q args (mkArg Ez false grad_linear_Ez))) E)) ->
  is_gradient (s_M s) (pf_val J) (stored_args o) (fun i => pf_grad J i (stored_args o)) ->
  exists s'' gr Sn,
    grad_loop e o (List.combine (List.combine (ob_grads (o_objective o)) (ob_dJ (o_objective o))) (ob_args (o_objective o))) (fun _ => 0%R) s = (s'', Ok gr) /\
    loop_state s s'' /\
    (forall p, gr p = rsum (s_M s) (fun j => o_W o p j * o_design o j * Sn j)%R) /\
    forall p, p < s_M s -> forall X : bool -> R -> vec,
      (forall q, q < List.length args -> let a := List.nth q args (mkArg Ez false grad_linear_Ez) in
         branch o s rho p (oa_nl a) (X (oa_nl a)) /\ forall E, arg_field s a = Some E -> veq (s_M s) (X (oa_nl a) 0%R) E) ->
      is_derive (fun t => pf_val J (List.map (fun a => field_map s (oa_comp a) (X (oa_nl a) t)) args)) 0%R
        (rsum (s_M s) (fun j => o_W o j p * Sn j)%R).
Proof.
  intros He Hpol HC Hrho HP HS Hob HL HA HR HLs HF HG.
  destruct (adjoint_main_dir e o s rho J args He Hpol HC Hrho HP HS Hob HL HA HR HLs HF HG) as (s'' & gr & Sn & E1 & E2 & E3 & E4).
  exists s'', gr, Sn. split; [exact E1|]. split; [exact E2|]. split; [exact E3|]. intros p Hp X HX.
  rewrite (rsum_ext (s_M s) _ (fun j => rmv (s_M s) (o_W o) (unitv p) j * Sn j)%R) by (intros j _; rewrite rmv_unitv by exact Hp; reflexivity).
  apply E4. intros q Hq a. destruct (HX q Hq) as [H1 H2]. split; [apply branch_dbranch, H1|exact H2].
Qed.
