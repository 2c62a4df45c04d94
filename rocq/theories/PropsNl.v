(** C26-C28, C68, C70: Kerr nonlinearity, complex-to-real solve, index shift, grid averaging. *)
From Coq Require Import Reals Lra Lia List ZArith Arith Bool String Permutation.
From Coquelicot Require Import Coquelicot.
From Verif Require Import Base Linear MCore MSim Spec PCore PSim PEx PropsSolve.
Import ListNotations.

Local Open Scope nat_scope.
(* ------------------------------------------------------------------ *)
(** * Specification: Kerr permittivity *)

(** third-order permittivity of one nonlinearity at one pixel: 3 chi3 |E|^2, scaled
    with the density of material if requested *)
Definition kerr_spec (chi region E2 : R) (scaled : bool) (eps eps_max : R) : R :=
  (3 * chi * region * E2 * (if scaled then (eps - 1) / (eps_max - 1) else 1))%R.

(** the coefficient of |E|^2 *)
Definition kerr_coef (l : list nonlin) (k : nat) (eps : R) : R :=
  fold_right (fun q a => (3 * nl_chi q * nl_region q k * nl_scale q eps + a)%R) 0%R l.
Definition kerr_dcoef (l : list nonlin) (k : nat) : R :=
  fold_right (fun q a => ((if nl_eps_scale q then 3 * nl_chi q * nl_region q k * (1 / (nl_eps_max q - 1)) else 0) + a)%R) 0%R l.

Lemma fold_left_acc {T} (f : T -> R) l : forall a, fold_left (fun acc q => (acc + f q)%R) l a = (a + fold_right (fun q b => f q + b)%R 0%R l)%R.
Proof. induction l; intro b; simpl; [ring|]. rewrite IHl. ring. Qed.
Lemma fold_left_accC {T} (f : T -> C) l : forall a, fold_left (fun acc q => (acc + f q)%C) l a = (a + fold_right (fun q b => f q + b)%C (RtoC 0) l)%C.
Proof. induction l; intro b; simpl; [ring|]. rewrite IHl. ring. Qed.

Lemma sum_eps_nl_coef l E eps k : sum_eps_nl l E eps k = (kerr_coef l k (eps k) * Cnorm2 (E k))%R.
Proof.
  unfold sum_eps_nl. rewrite fold_left_acc, Rplus_0_l. unfold kerr_coef. induction l; simpl; [ring|].
  rewrite IHl. unfold kerr_eps_nl. rewrite Cmod2. ring.
Qed.
Lemma sum_dnl_de_coef l E eps k : sum_dnl_de l E eps k = (RtoC (kerr_coef l k (eps k)) * Cconj (E k))%C.
Proof.
  unfold sum_dnl_de. rewrite fold_left_accC, Cplus_0_l. unfold kerr_coef. induction l; simpl; [ring|].
  rewrite IHl. unfold kerr_dnl_de. rewrite !RtoC_plus, !RtoC_mult. ring.
Qed.
Lemma sum_dnl_deps_coef l E eps k : sum_dnl_deps l E eps k = (kerr_dcoef l k * Cnorm2 (E k))%R.
Proof.
  unfold sum_dnl_deps. rewrite fold_left_acc, Rplus_0_l. unfold kerr_dcoef. induction l; simpl; [ring|].
  rewrite IHl. unfold kerr_dnl_deps. rewrite Cmod2. destruct (nl_eps_scale a); ring.
Qed.
Lemma Cnorm2_plus z w : Cnorm2 (z + w)%C = (Cnorm2 z + 2 * Re (Cconj z * w)%C + Cnorm2 w)%R.
Proof. unfold Cnorm2. autorewrite with reim. ring. Qed.

(* ------------------------------------------------------------------ *)
(** * C26 *)
Theorem C26_field_derivative_exact :
  forall s k, exists c : R, forall E h : vec,
    s_eps_nl (compute_nl (vplus E h) s) k =
    (s_eps_nl (compute_nl E s) k + 2 * Re (s_dnl_de (compute_nl E s) k * h k)%C + c * Cmod (h k) ^ 2)%R.
Proof.
  intros s k. exists (kerr_coef (s_nl s) k (nd_buf (s_eps s) k)). intros E h.
  cbn [compute_nl upd_nlvals s_eps_nl s_dnl_de]. rewrite !sum_eps_nl_coef, sum_dnl_de_coef. unfold vplus.
  rewrite Cnorm2_plus, Cmod2. rewrite <- Cmult_assoc, Re_RtoC_mult. ring.
Qed.
(** the permittivity array with pixel k replaced *)
Definition with_pixel (s : sim) (k : nat) (x : R) : sim :=
  set_eps (mkNd (nd_nx (s_eps s)) (nd_ny (s_eps s)) (fun j => if Nat.eqb j k then x else nd_buf (s_eps s) j)) s.
Theorem C26_permittivity_derivative_exact :
  forall s E k x,
    derivable_pt_lim (fun t => s_eps_nl (compute_nl E (with_pixel s k t)) k) x
      (s_dnl_deps (compute_nl E (with_pixel s k x)) k).
Proof.
  intros s E k x. cbn [compute_nl upd_nlvals s_dnl_deps with_pixel set_eps s_nl s_eps nd_buf].
  rewrite sum_dnl_deps_coef.
  apply is_derive_Reals. apply (is_derive_ext (fun t => (kerr_coef (s_nl s) k t * Cnorm2 (E k))%R)).
  { intro t. cbn [compute_nl upd_nlvals s_eps_nl with_pixel set_eps s_nl s_eps nd_buf].
    rewrite sum_eps_nl_coef, Nat.eqb_refl. reflexivity. }
  assert (H: is_derive (fun t => kerr_coef (s_nl s) k t) x (kerr_dcoef (s_nl s) k)).
  { generalize (s_nl s) as l. induction l as [|q l IH]; simpl.
    - apply (is_derive_const 0%R).
    - apply (is_derive_plus (fun t => (3 * nl_chi q * nl_region q k * nl_scale q t)%R) (fun t => kerr_coef l k t)); [|exact IH].
      unfold nl_scale. destruct (nl_eps_scale q).
      + evar_last. { apply (is_derive_scal (fun t => ((t - 1) / (nl_eps_max q - 1))%R) x (3 * nl_chi q * nl_region q k)).
          unfold Rdiv. apply (is_derive_scal_l (fun t : R => (t - 1)%R) x 1%R (/ (nl_eps_max q - 1))%R).
          auto_derive; [exact I|ring]. }
        unfold scal; simpl; unfold mult; simpl. unfold Rdiv. ring.
      + apply (is_derive_const (K:=R_AbsRing) (V:=R_NormedModule) (3 * nl_chi q * nl_region q k * 1)%R). }
  evar_last. { apply (is_derive_scal_l (fun t => kerr_coef (s_nl s) k t) x (kerr_dcoef (s_nl s) k) (Cnorm2 (E k))). exact H. }
  reflexivity.
Qed.

(* ------------------------------------------------------------------ *)
(** * C27 *)
(** each accepted nonlinearity adds its Kerr term (chi in units of L0) *)
Theorem C27_contributions_add_up :
  forall s chi region scaled eps_max s', (scaled = true -> eps_max <> None) ->
  add_nl chi region "kerr" scaled eps_max s = (s', Ok tt) ->
  forall E k,
  s_eps_nl (compute_nl E s') k =
  (s_eps_nl (compute_nl E s) k +
   kerr_spec (chi / (s_L0 s) ^ 2) (region k) (Cmod (E k) ^ 2) scaled (nd_buf (s_eps s) k)
     (match eps_max with Some m => m | None => 0 end))%R.
Proof.
  intros s chi region scaled em s' Hs H E k. unfold add_nl, bind, getS, lift, putS, Nonlinearity in H.
  rewrite String.eqb_refl in H. assert (Eq: s' = upd_nl (s_nl s ++ [mkNonlin (chi / s_L0 s ^ 2) region scaled (match em with Some m => m | None => 0%R end)]) s).
  { destruct scaled; [destruct em|]; try (injection H as <-; reflexivity). destruct (Hs eq_refl eq_refl). }
  subst s'. cbn [compute_nl upd_nlvals s_eps_nl upd_nl s_nl s_eps]. unfold sum_eps_nl. rewrite fold_left_app. cbn [fold_left].
  unfold kerr_eps_nl, kerr_spec, nl_scale; cbn [nl_chi nl_region nl_eps_scale nl_eps_max]. reflexivity.
Qed.
Theorem C27_initially_zero : forall omega eps dl np p L0 s E k, Simulation omega eps dl np p L0 = Ok s ->
  s_eps_nl (compute_nl E s) k = 0%R.
Proof.
  intros omega eps dl np p L0 s E k H. unfold Simulation in H. destruct (check_inputs _ _ _ _); [|discriminate].
  injection H as <-. reflexivity.
Qed.
Theorem C27_order_irrelevant :
  forall s l l' E k, Permutation l l' ->
  s_eps_nl (compute_nl E (upd_nl l s)) k = s_eps_nl (compute_nl E (upd_nl l' s)) k /\
  s_dnl_de (compute_nl E (upd_nl l s)) k = s_dnl_de (compute_nl E (upd_nl l' s)) k /\
  s_dnl_deps (compute_nl E (upd_nl l s)) k = s_dnl_deps (compute_nl E (upd_nl l' s)) k.
Proof.
  intros s l l' E k HP. cbn [compute_nl upd_nlvals s_eps_nl s_dnl_de s_dnl_deps upd_nl s_nl s_eps].
  rewrite !sum_eps_nl_coef, !sum_dnl_de_coef, !sum_dnl_deps_coef.
  assert (E1: kerr_coef l k (nd_buf (s_eps s) k) = kerr_coef l' k (nd_buf (s_eps s) k)).
  { unfold kerr_coef. induction HP; simpl; [reflexivity|rewrite IHHP; reflexivity|ring|exact (eq_trans IHHP1 IHHP2)]. }
  assert (E2: kerr_dcoef l k = kerr_dcoef l' k).
  { clear E1. unfold kerr_dcoef. induction HP; simpl; [reflexivity|rewrite IHHP; reflexivity|ring|exact (eq_trans IHHP1 IHHP2)]. }
  rewrite E1, E2. auto.
Qed.
Theorem C27_zero_and_phase :
  forall s E k,
  ((forall q, List.In q (s_nl s) -> nl_region q k = 0%R) -> s_eps_nl (compute_nl E s) k = 0%R) /\
  (E k = RtoC 0 -> s_eps_nl (compute_nl E s) k = 0%R) /\
  (forall u, Cmod u = 1%R -> s_eps_nl (compute_nl (vscal u E) s) k = s_eps_nl (compute_nl E s) k) /\
  ((forall q, List.In q (s_nl s) -> nl_eps_scale q = true) -> nd_buf (s_eps s) k = 1%R -> s_eps_nl (compute_nl E s) k = 0%R).
Proof.
  intros s E k. cbn [compute_nl upd_nlvals s_eps_nl]. split; [|split; [|split]].
  - intro H. rewrite sum_eps_nl_coef. replace (kerr_coef (s_nl s) k (nd_buf (s_eps s) k)) with 0%R; [ring|].
    unfold kerr_coef. induction (s_nl s) as [|q l IH]; simpl; [reflexivity|]. rewrite <- IH by (intros; apply H; right; assumption).
    rewrite (H q) by (left; reflexivity). ring.
  - intro H. rewrite sum_eps_nl_coef, H, Cnorm2_0. ring.
  - intros u Hu. rewrite !sum_eps_nl_coef. unfold vscal. rewrite Cnorm2_mult, <- (Cmod2 u), Hu. ring.
  - intros H He. rewrite sum_eps_nl_coef, He. replace (kerr_coef (s_nl s) k 1) with 0%R; [ring|].
    unfold kerr_coef. induction (s_nl s) as [|q l IH]; simpl; [reflexivity|]. rewrite <- IH by (intros; apply H; right; assumption).
    unfold nl_scale. rewrite (H q) by (left; reflexivity). unfold Rdiv. rewrite Rminus_diag_eq by reflexivity. ring.
Qed.
(** in full material the scaled nonlinearity is the unscaled one *)
Theorem C27_scaled_in_material :
  forall s chi region m s1 s2 E k, (m <> 1)%R -> nd_buf (s_eps s) k = m ->
  add_nl chi region "kerr" true (Some m) s = (s1, Ok tt) ->
  add_nl chi region "kerr" false None s = (s2, Ok tt) ->
  s_eps_nl (compute_nl E s1) k = s_eps_nl (compute_nl E s2) k.
Proof.
  intros s chi region m s1 s2 E k Hm He H1 H2.
  rewrite (C27_contributions_add_up s chi region true (Some m) s1) by (try assumption; discriminate).
  rewrite (C27_contributions_add_up s chi region false None s2) by (try assumption; discriminate).
  unfold kerr_spec. rewrite He. f_equal. f_equal. unfold Rdiv at 1. apply Rinv_r. intro Q; apply Hm; lra.
Qed.
Example C27_met : exists s1 s2,
  add_nl 2 (fun k => if Nat.eqb k 0 then 0 else 1)%R "kerr" true (Some 5%R) (ex_s "Ez") = (s1, Ok tt) /\
  add_nl 2 (fun k => if Nat.eqb k 0 then 0 else 1)%R "kerr" false None (ex_s "Ez") = (s2, Ok tt) /\
  nd_buf (s_eps (ex_s "Ez")) 4%nat = 5%R /\
  s_eps_nl (compute_nl (fun _ => Ci) s1) 4%nat = 6%R.
Proof.
  assert (HS := ex_s_eq "Ez" (or_introl eq_refl)).
  assert (HE: s_eps (ex_s "Ez") = ex_eps /\ s_L0 (ex_s "Ez") = 1%R /\ s_nl (ex_s "Ez") = []).
  { unfold ex_sim_res, Simulation in HS. rewrite ex_check in HS by auto. injection HS as <-. repeat split. }
  destruct HE as (HE1 & HE2 & HE3).
  eexists; eexists. split; [reflexivity|]. split; [reflexivity|]. rewrite HE1. split; [reflexivity|].
  cbn [compute_nl upd_nlvals s_eps_nl upd_nl s_nl s_eps]. rewrite HE1, HE2, HE3. unfold sum_eps_nl, kerr_eps_nl, nl_scale.
  cbn [List.app fold_left nl_chi nl_region nl_eps_scale nl_eps_max Nat.eqb nd_buf ex_eps]. rewrite Cmod2. unfold Cnorm2; simpl. field.
Qed.

(* ------------------------------------------------------------------ *)
(** * C28 *)
(** the real library solver is exact on every real system with at most one solution *)
Definition real_solver_exact (e : env) : Prop :=
  forall n A b, (forall x, (forall i, (i < n)%nat -> rmv n A x i = 0%R) -> forall j, (j < n)%nat -> x j = 0%R) ->
  forall i, (i < n)%nat -> rmv n A (e_rsolve e n A b) i = b i.
(** x solves the widely linear system A11 x + A12 conj(x) = b *)
Definition widely_solves (n : nat) (A11 A12 : mat) (x b : vec) : Prop :=
  forall r, (r < n)%nat -> (csum n (fun c => A11 r c * x c) + csum n (fun c => A12 r c * Cconj (x c)) = b r)%C.
Definition widely_injective (n : nat) (A11 A12 : mat) : Prop :=
  forall x, widely_solves n A11 A12 x (fun _ => RtoC 0) -> forall k, (k < n)%nat -> x k = RtoC 0.

Lemma Areal_mv n A11 A12 (x : rvec) i : (i < n)%nat ->
  rmv (2 * n) (Areal n A11 A12) x i = Re (csum n (fun c => A11 i c * complex_of_real n x c) + csum n (fun c => A12 i c * Cconj (complex_of_real n x c)))%C /\
  rmv (2 * n) (Areal n A11 A12) x (n + i) = Im (csum n (fun c => A11 i c * complex_of_real n x c) + csum n (fun c => A12 i c * Cconj (complex_of_real n x c)))%C.
Proof.
  intro Hi. replace (2 * n)%nat with (n + n)%nat by lia. unfold rmv. rewrite !rsum_app.
  rewrite Re_plus, Im_plus, !Re_csum, !Im_csum.
  split; rewrite <- !rsum_plus; apply rsum_ext; intros c Hc; unfold Areal, complex_of_real; autorewrite with reim.
  - rewrite (proj2 (Nat.ltb_lt i n)), (proj2 (Nat.ltb_lt c n)) by assumption.
    rewrite (proj2 (Nat.ltb_ge (n + c) n)) by lia. replace (n + c - n)%nat with c by lia. ring.
  - rewrite (proj2 (Nat.ltb_ge (n + i) n)) by lia. rewrite (proj2 (Nat.ltb_lt c n)) by assumption.
    rewrite (proj2 (Nat.ltb_ge (n + c) n)) by lia. replace (n + c - n)%nat with c by lia. replace (n + i - n)%nat with i by lia. ring.
Qed.
Lemma widely_unique n A11 A12 x y b : widely_injective n A11 A12 ->
  widely_solves n A11 A12 x b -> widely_solves n A11 A12 y b -> veq n x y.
Proof.
  intros HI Hx Hy k Hk. assert (H: (x k - y k = RtoC 0)%C).
  { apply (HI (fun k => x k - y k)%C); [|assumption]. intros r Hr.
    rewrite (csum_ext _ _ (fun c => A11 r c * x c - A11 r c * y c)%C) by (intros; ring).
    rewrite (csum_ext _ (fun c => A12 r c * Cconj (x c - y c))%C (fun c => A12 r c * Cconj (x c) - A12 r c * Cconj (y c))%C)
      by (intros; rewrite Cconj_minus; ring).
    rewrite !csum_minus. specialize (Hx r Hr). specialize (Hy r Hr).
    transitivity ((csum n (fun c => A11 r c * x c) + csum n (fun c => A12 r c * Cconj (x c))) - (csum n (fun c => A11 r c * y c) + csum n (fun c => A12 r c * Cconj (y c))))%C; [ring|].
    rewrite Hx, Hy. ring. }
  replace (x k) with ((x k - y k) + y k)%C by ring. rewrite H. ring.
Qed.
Theorem C28_complex2real_solves_widely_linear_system :
  forall e n A11 A12 b x, real_solver_exact e -> widely_injective n A11 A12 ->
  forall sv, solver_complex2real e n A11 A12 b sv = Ok x ->
  forall y, widely_solves n A11 A12 y b <-> veq n y x.
Proof.
  intros e n A11 A12 b x He HI sv H.
  assert (HX: widely_solves n A11 A12 x b).
  { unfold solver_complex2real in H. destruct (all_zero n b) eqn:Z.
    - injection H as <-. intros r Hr. rewrite (proj1 (all_zero_spec _ _) Z) by assumption.
      rewrite !csum_0; [ring| |]; intros; unfold vzero; [rewrite Cconj_RtoC|]; ring.
    - destruct sv; try discriminate. destruct (e_pardiso e); [|discriminate]. injection H as <-.
      set (z := e_rsolve e (2 * n) (Areal n A11 A12) (breal n b)).
      assert (HZ: forall i, (i < 2 * n)%nat -> rmv (2 * n) (Areal n A11 A12) z i = breal n b i).
      { apply He. intros u Hu j Hj.
        assert (HU: forall k, (k < n)%nat -> complex_of_real n u k = RtoC 0).
        { apply HI. intros r Hr. destruct (Areal_mv n A11 A12 u r Hr) as [E1 E2].
          rewrite Hu in E1, E2 by lia. apply C_ext; [rewrite <- E1|rewrite <- E2]; reflexivity. }
        destruct (Nat.lt_ge_cases j n) as [L|L].
        - assert (E := f_equal Re (HU j L)). unfold complex_of_real in E. autorewrite with reim in E. lra.
        - assert (E := f_equal Im (HU (j - n)%nat ltac:(lia))). unfold complex_of_real in E. autorewrite with reim in E.
          replace (n + (j - n))%nat with j in E by lia. lra. }
      intros r Hr. destruct (Areal_mv n A11 A12 z r Hr) as [E1 E2]. rewrite HZ in E1, E2 by lia.
      unfold breal in E1, E2. rewrite (proj2 (Nat.ltb_lt r n)) in E1 by assumption.
      rewrite (proj2 (Nat.ltb_ge (n + r) n)) in E2 by lia. replace (n + r - n)%nat with r in E2 by lia.
      apply C_ext; symmetry; assumption. }
  intro y. split; intro Hy.
  - eapply widely_unique; eassumption.
  - intros r Hr. rewrite <- (HX r Hr). f_equal; apply csum_ext; intros c Hc; rewrite (Hy c Hc); reflexivity.
Qed.
(** an environment with an exact real solver exists *)
Definition ex_env_mkl : env := mkEnv true (fun _ n A b => exact_solver n A b)
  (fun n A b k => Re (exact_solver n (fun i j => RtoC (A i j)) (fun i => RtoC (b i)) k))
  (fun _ _ _ _ => Ok vzero) (fun _ E => (E, E)).
Lemma ex_mkl_exact : solver_exact ex_env_mkl.
Proof. intros sv n A b HA. apply exact_solver_correct; assumption. Qed.
Lemma ex_mkl_real_exact : real_solver_exact ex_env_mkl.
Proof.
  intros n A b HI i Hi. cbn [ex_env_mkl e_rsolve].
  assert (HN: nonsingular n (fun i j => RtoC (A i j))).
  { apply injective_nonsingular. intros x Hx j Hj.
    assert (H1: forall j, (j < n)%nat -> Re (x j) = 0%R).
    { apply (HI (fun j => Re (x j))). intros r Hr. specialize (Hx r Hr). apply (f_equal Re) in Hx. unfold mv in Hx.
      rewrite Re_csum in Hx. rewrite Re_RtoC in Hx. rewrite <- Hx. apply rsum_ext. intros; rewrite Re_RtoC_mult; reflexivity. }
    assert (H2: forall j, (j < n)%nat -> Im (x j) = 0%R).
    { apply (HI (fun j => Im (x j))). intros r Hr. specialize (Hx r Hr). apply (f_equal Im) in Hx. unfold mv in Hx.
      rewrite Im_csum in Hx. rewrite Im_RtoC in Hx. rewrite <- Hx. apply rsum_ext. intros; rewrite Im_RtoC_mult; reflexivity. }
    apply C_ext; [rewrite H1|rewrite H2]; auto. }
  assert (E := exact_solver_correct n _ (fun i => RtoC (b i)) HN i Hi).
  apply (f_equal Re) in E. unfold mv in E. rewrite Re_csum, Re_RtoC in E. rewrite <- E.
  unfold rmv. apply rsum_ext; intros. rewrite Re_RtoC_mult. reflexivity.
Qed.
(** the system 2 x + conj(x) = 3 + i *)
Example C28_met : widely_injective 1 (fun _ _ => RtoC 2) (fun _ _ => RtoC 1) /\
  exists x, solver_complex2real ex_env_mkl 1 (fun _ _ => RtoC 2) (fun _ _ => RtoC 1) (fun _ => (3, 1)%R) Pardiso = Ok x.
Proof.
  split.
  - intros x Hx k Hk. replace k with O by lia. specialize (Hx O ltac:(lia)). simpl in Hx.
    assert (E1 := f_equal Re Hx). assert (E2 := f_equal Im Hx). autorewrite with reim in E1, E2.
    apply C_ext; autorewrite with reim; lra.
  - unfold solver_complex2real. destruct (all_zero _ _); eexists; reflexivity.
Qed.

(* ------------------------------------------------------------------ *)
(** * C68 *)
Theorem C68_index_shift_bounds :
  forall e s s' shift, compute_index_shift e s = (s', Ok shift) ->
  forall k, (0 <= shift k)%R /\ (s_eps_nl s' k = 0%R -> shift k = 0%R) /\
    ((0 < nd_buf (s_eps s') k)%R -> (0 <= s_eps_nl s' k)%R ->
       (shift k <= s_eps_nl s' k / (2 * sqrt (nd_buf (s_eps s') k)))%R /\ (s_eps_nl s' k <> 0%R -> (0 < shift k)%R)) .
Proof.
  intros e s s' shift H. unfold compute_index_shift, bind, getS, ret in H.
  destruct (solve_fields e false false s) as [s1 [F1|]]; [|discriminate].
  destruct (solve_fields_nl_default e s1) as [s2 [F2|]]; [|discriminate]. injection H as <- <-.
  intro k. set (eps := nd_buf (s_eps s2) k). set (en := s_eps_nl s2 k). unfold index_shift_at.
  split; [apply Rabs_pos|]. split; [intros ->; rewrite Rplus_0_r, Rminus_diag_eq, Rabs_R0 by reflexivity; reflexivity|].
  intros He Hn. assert (P1 := sqrt_lt_R0 eps He). assert (P2: (sqrt eps <= sqrt (eps + en))%R) by (apply sqrt_le_1_alt; lra).
  rewrite Rabs_pos_eq by lra.
  assert (Q1 := sqrt_sqrt eps ltac:(lra)). assert (Q2 := sqrt_sqrt (eps + en) ltac:(lra)).
  split.
  - apply (Rmult_le_reg_r (2 * sqrt eps)); [lra|]. replace (en / (2 * sqrt eps) * (2 * sqrt eps))%R with en by (field; lra). nra.
  - intro Hne. assert (sqrt eps < sqrt (eps + en))%R by (apply sqrt_lt_1; lra). lra.
Qed.

(* ------------------------------------------------------------------ *)
(** * C70 *)
Lemma roll1_pix {T} w Nx Ny (a : nat -> T) i j : (i < Nx)%nat -> (j < Ny)%nat ->
  roll1 w Nx Ny a (pix Ny i j) = a (match w with AxX => pix Ny (prev Nx i) j | AxY => pix Ny i (prev Ny j) end).
Proof.
  intros Hi Hj. unfold roll1, pix. rewrite flat_div, flat_mod by assumption.
  assert (HP: forall N x, (x < N)%nat -> ((x + N - 1) mod N)%nat = prev N x).
  { intros N x Hx. destruct x; cbn [prev].
    - rewrite Nat.mod_small; lia.
    - replace (S x + N - 1)%nat with (x + 1 * N)%nat by lia. rewrite Nat.mod_add by lia. apply Nat.mod_small; lia. }
  destruct w; rewrite HP by assumption; reflexivity.
Qed.
Theorem C70_average_of_neighbours :
  forall w Nx Ny a i j, (i < Nx)%nat -> (j < Ny)%nat ->
  grid_average w Nx Ny a (pix Ny i j) =
  ((a (match w with AxX => pix Ny (prev Nx i) j | AxY => pix Ny i (prev Ny j) end) + a (pix Ny i j)) / RtoC 2)%C.
Proof. intros. unfold grid_average. rewrite roll1_pix by assumption. reflexivity. Qed.
Lemma csum_prev N f : csum N (fun i => f (prev N i)) = csum N f.
Proof.
  destruct N; [reflexivity|]. rewrite csum_S_first. cbn [prev]. replace (S N - 1)%nat with N by lia.
  simpl. rewrite Cplus_comm. reflexivity.
Qed.
Theorem C70_total_preserved :
  forall w Nx Ny a, csum (Nx * Ny) (grid_average w Nx Ny a) = csum (Nx * Ny) a.
Proof.
  intros w Nx Ny a. rewrite !csum_flat.
  rewrite (csum_ext Nx _ (fun i => csum Ny (fun j => (a (match w with AxX => pix Ny (prev Nx i) j | AxY => pix Ny i (prev Ny j) end) * / RtoC 2 + a (pix Ny i j) * / RtoC 2)%C))).
  2:{ intros i Hi. apply csum_ext; intros j Hj. fold (pix Ny i j). rewrite C70_average_of_neighbours by assumption. unfold Cdiv. ring. }
  assert (HR: csum Nx (fun i => csum Ny (fun j => a (match w with AxX => pix Ny (prev Nx i) j | AxY => pix Ny i (prev Ny j) end)))
     = csum Nx (fun i => csum Ny (fun j => a (pix Ny i j)))).
  { destruct w.
    - apply (csum_prev Nx (fun i => csum Ny (fun j => a (pix Ny i j)))).
    - apply csum_ext; intros i _. apply (csum_prev Ny (fun j => a (pix Ny i j))). }
  rewrite (csum_ext Nx _ (fun i => csum Ny (fun j => a (match w with AxX => pix Ny (prev Nx i) j | AxY => pix Ny i (prev Ny j) end)) * / RtoC 2
      + csum Ny (fun j => a (pix Ny i j)) * / RtoC 2)%C).
  2:{ intros i _. rewrite csum_plus, !csum_scal_r. reflexivity. }
  rewrite csum_plus, !csum_scal_r, HR. unfold pix. etransitivity; [|apply half_double]. unfold Cdiv. rewrite Cmult_plus_distr_r. reflexivity.
Qed.
Theorem C70_bounds_preserved :
  forall w Nx Ny (a : rvec) lo hi, (forall k, (k < Nx * Ny)%nat -> (lo <= a k <= hi)%R) ->
  forall k, (k < Nx * Ny)%nat -> exists r, grid_average w Nx Ny (cvec a) k = RtoC r /\ (lo <= r <= hi)%R.
Proof.
  intros w Nx Ny a lo hi H k Hk. destruct (pix_bound _ _ _ Hk) as (i & j & Hi & Hj & ->).
  rewrite C70_average_of_neighbours by assumption.
  set (k' := match w with AxX => pix Ny (prev Nx i) j | AxY => pix Ny i (prev Ny j) end).
  assert (Hk': (k' < Nx * Ny)%nat) by (unfold k'; destruct w; apply flat_lt; try assumption; apply prev_lt; assumption).
  exists ((a k' + a (pix Ny i j)) / 2)%R. assert (H1 := H _ Hk). assert (H2 := H _ Hk'). split; [|lra].
  unfold cvec. rewrite <- RtoC_plus, <- RtoC_div by lra. reflexivity.
Qed.
Theorem C70_uniform_unchanged :
  forall w Nx Ny (a : vec) v, (forall k, (k < Nx * Ny)%nat -> a k = v) ->
  forall k, (k < Nx * Ny)%nat -> grid_average w Nx Ny a k = v.
Proof.
  intros w Nx Ny a v H k Hk. destruct (pix_bound _ _ _ Hk) as (i & j & Hi & Hj & ->).
  rewrite C70_average_of_neighbours by assumption. rewrite !H; [apply half_double|assumption|].
  destruct w; apply flat_lt; try assumption; apply prev_lt; assumption.
Qed.
