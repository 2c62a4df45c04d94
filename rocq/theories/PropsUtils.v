(** C64-C66, C77: utils.py. *)
From Coq Require Import Reals Lra Lia List ZArith Arith Bool String Permutation.
From Coquelicot Require Import Coquelicot.
From Verif Require Import Base Linear MCore MSim MFilter MOpt MUtils.
Import ListNotations.
Local Open Scope R_scope.

(* ------------------------------------------------------------------ *)
(** ** Specification *)

(** a design region: values 0 or 1, at least one pixel *)
Definition design_region (n : nat) (d : rvec) : Prop :=
  (forall k, (k < n)%nat -> d k = 0 \/ d k = 1) /\ exists k, (k < n)%nat /\ d k = 1.
(** permittivities between vacuum and the material in the design region *)
Definition between (n : nat) (d : rvec) (eps_m : R) (eps : rvec) : Prop :=
  forall k, (k < n)%nat -> d k = 1 -> 1 <= eps k <= eps_m.
Definition binary (n : nat) (d : rvec) (eps_m : R) (eps : rvec) : Prop :=
  forall k, (k < n)%nat -> d k = 1 -> eps k = 1 \/ eps k = eps_m.
Definition half_way (n : nat) (d : rvec) (eps_m : R) (eps : rvec) : Prop :=
  forall k, (k < n)%nat -> d k = 1 -> eps k = (1 + eps_m) / 2.
(** number of design pixels and mean grayness over them *)
Definition grayness (eps_m e : R) : R := 4 * ((e - 1) / (eps_m - 1)) * (1 - (e - 1) / (eps_m - 1)).

(* ------------------------------------------------------------------ *)
(** ** Lemmas *)
Lemma design_N n d : design_region n d -> 0 < rsum n d.
Proof.
  intros [H (k & Hk & E)]. apply Rlt_le_trans with (d k); [rewrite E; lra|]. apply rsum_term_le; [|assumption].
  intros j Hj. destruct (H j Hj) as [-> | ->]; lra.
Qed.
Lemma M_nd_in b n eps k : design_region n (b_design b) -> (k < n)%nat ->
  M_nd b eps k = b_design b k * grayness (b_eps_m b) (eps k).
Proof.
  intros [H _] Hk. unfold M_nd, bin_rho, grayness. destruct (H k Hk) as [-> | ->]; ring.
Qed.
Lemma gray_range em e : 1 < em -> 1 <= e <= em -> 0 <= grayness em e <= 1.
Proof.
  intros He H. unfold grayness. set (r := (e - 1) / (em - 1)). assert (0 <= r <= 1); [|assert (0 <= (2 * r - 1) * (2 * r - 1)) by apply Rle_0_sqr; assert (0 <= r * (1 - r)) by (apply Rmult_le_pos; lra); lra].
  unfold r. split; [apply Rmult_le_pos; [lra|left; apply Rinv_0_lt_compat; lra]|].
  apply Rmult_le_reg_r with (em - 1); [lra|]. unfold Rdiv. rewrite Rmult_assoc, Rinv_l by lra. lra.
Qed.
Lemma gray_0 em e : 1 < em -> grayness em e = 0 <-> e = 1 \/ e = em.
Proof.
  intro He. unfold grayness. split.
  - intro H. apply Rmult_integral in H as [H|H].
    + left. apply Rmult_integral in H as [H|H]; [lra|]. apply Rmult_integral in H as [H|H]; [lra|].
      assert (/ (em - 1) <> 0) by (apply Rinv_neq_0_compat; lra). contradiction.
    + right. assert ((e - 1) / (em - 1) = 1) by lra. apply (Rmult_eq_compat_r (em - 1)) in H0.
      unfold Rdiv in H0. rewrite Rmult_assoc, Rinv_l in H0 by lra. lra.
  - intros [-> | ->]; field; lra.
Qed.
Lemma gray_1 em e : 1 < em -> grayness em e = 1 <-> e = (1 + em) / 2.
Proof.
  intro He. unfold grayness. split.
  - intro H. set (r := (e - 1) / (em - 1)) in *. assert (HR: (2 * r - 1) * (2 * r - 1) = 0) by lra. apply Rmult_integral in HR. assert (H0: r = 1 / 2) by (destruct HR; lra). unfold r in H0.
    apply (Rmult_eq_compat_r (em - 1)) in H0. unfold Rdiv in H0. rewrite Rmult_assoc, Rinv_l in H0 by lra. lra.
  - intros ->. field. lra.
Qed.
(** the mean grayness is between 0 and 1; when it is 0 and when it is 1 *)
Lemma mean_gray b n eps : 1 < b_eps_m b -> design_region n (b_design b) -> between n (b_design b) (b_eps_m b) eps ->
  let q := rsum n (M_nd b eps) / rsum n (b_design b) in
  0 <= q <= 1 /\ (q = 0 <-> binary n (b_design b) (b_eps_m b) eps) /\ (q = 1 <-> half_way n (b_design b) (b_eps_m b) eps).
Proof.
  intros He HD HB q. assert (HN := design_N _ _ HD). set (N := rsum n (b_design b)) in *. set (S := rsum n (M_nd b eps)) in *.
  assert (T: forall k, (k < n)%nat -> 0 <= M_nd b eps k <= b_design b k).
  { intros k Hk. rewrite (M_nd_in b n) by assumption. destruct HD as [HD _]. destruct (HD k Hk) as [E|E]; rewrite E; [lra|].
    assert (G := gray_range _ _ He (HB k Hk E)). lra. }
  assert (S0: 0 <= S) by (apply rsum_ge0; intros; apply T; assumption).
  assert (S1: S <= N) by (apply rsum_le; intros; apply T; assumption).
  split; [|split].
  - unfold q. split; [apply Rmult_le_pos; [assumption|left; apply Rinv_0_lt_compat; assumption]|].
    apply Rmult_le_reg_r with N; [assumption|]. unfold Rdiv. rewrite Rmult_assoc, Rinv_l by lra. lra.
  - assert (Q: q = 0 <-> S = 0).
    { unfold q. split; [|intros ->; unfold Rdiv; ring]. intro E. apply (Rmult_eq_compat_r N) in E. unfold Rdiv in E.
      rewrite Rmult_assoc, Rinv_l in E by lra. lra. }
    rewrite Q. split.
    + intros E k Hk Ek. assert (Z: M_nd b eps k = 0) by (apply (rsum_eq0 n (M_nd b eps)); [intros; apply T; assumption|exact E|exact Hk]).
      rewrite (M_nd_in b n) in Z by assumption. rewrite Ek, Rmult_1_l in Z. apply gray_0 in Z; assumption.
    + intro HBi. apply rsum_0. intros k Hk. rewrite (M_nd_in b n) by assumption. destruct HD as [HD _].
      destruct (HD k Hk) as [E|E]; rewrite E; [ring|]. assert (Z := HBi k Hk E). apply gray_0 in Z; [rewrite Z; ring|assumption].
  - assert (Q: q = 1 <-> rsum n (fun k => b_design b k - M_nd b eps k) = 0).
    { rewrite rsum_minus. fold N S. unfold q. split.
      - intro E. apply (Rmult_eq_compat_r N) in E. unfold Rdiv in E. rewrite Rmult_assoc, Rinv_l in E by lra. lra.
      - intro E. replace S with N by lra. field. lra. }
    rewrite Q. split.
    + intros E k Hk Ek. assert (Z: b_design b k - M_nd b eps k = 0).
      { apply (rsum_eq0 n (fun k => b_design b k - M_nd b eps k)); [intros j Hj; specialize (T j Hj); lra|exact E|exact Hk]. }
      rewrite (M_nd_in b n) in Z by assumption. rewrite Ek, Rmult_1_l in Z. apply gray_1; [assumption|lra].
    + intro HH. apply rsum_0. intros k Hk. rewrite (M_nd_in b n) by assumption. destruct HD as [HD _].
      destruct (HD k Hk) as [E|E]; rewrite E; [ring|]. assert (Z := HH k Hk E). apply gray_1 in Z; [rewrite Z; ring|assumption].
Qed.
Lemma representable_ok {A} b Nx Ny (v : A) : 1 < b_eps_m b -> design_region (Nx * Ny) (b_design b) -> representable b Nx Ny v = Ok v.
Proof.
  intros He HD. apply design_N in HD. unfold representable, bin_N. destruct (Req_EM_T _ _); [lra|]. destruct (Req_EM_T _ _); [lra|reflexivity].
Qed.

(* ------------------------------------------------------------------ *)
(** * C64 *)
Theorem C64_density_factor :
  forall b Nx Ny eps, 1 < b_eps_m b -> design_region (Nx * Ny) (b_design b) ->
  between (Nx * Ny) (b_design b) (b_eps_m b) eps ->
  exists f, density_factor b Nx Ny eps = Ok f /\ 0 <= f <= 1 /\
    (f = 1 <-> binary (Nx * Ny) (b_design b) (b_eps_m b) eps) /\
    (f = 0 <-> half_way (Nx * Ny) (b_design b) (b_eps_m b) eps).
Proof.
  intros b Nx Ny eps He HD HB. unfold density_factor. rewrite representable_ok by assumption. eexists. split; [reflexivity|].
  destruct (mean_gray b (Nx * Ny) eps He HD HB) as (R & Z & O). unfold bin_N. set (q := rsum _ (M_nd b eps) / _) in *.
  split; [lra|]. split; [rewrite <- Z|rewrite <- O]; split; lra.
Qed.
Theorem C64_exponential_factor :
  forall b Nx Ny eps, 1 < b_eps_m b -> 0 < b_exp_const b -> design_region (Nx * Ny) (b_design b) ->
  between (Nx * Ny) (b_design b) (b_eps_m b) eps ->
  exists f, density_exp_factor b Nx Ny eps = Ok f /\ exp (- b_exp_const b) <= f <= 1 /\ 0 < f /\
    (f = 1 <-> binary (Nx * Ny) (b_design b) (b_eps_m b) eps) /\
    (f = exp (- b_exp_const b) <-> half_way (Nx * Ny) (b_design b) (b_eps_m b) eps).
Proof.
  intros b Nx Ny eps He Hc HD HB. unfold density_exp_factor. rewrite representable_ok by assumption. eexists. split; [reflexivity|].
  destruct (mean_gray b (Nx * Ny) eps He HD HB) as (R & Z & O). unfold bin_N. set (q := rsum _ (M_nd b eps) / _) in *.
  rewrite Rabs_pos_eq by lra. set (c := b_exp_const b) in *.
  assert (MON: forall x y, x <= y -> exp x <= exp y) by (intros x y [H|H]; [left; apply exp_increasing; assumption|right; congruence]).
  split; [split; [apply MON; nra|rewrite <- exp_0; apply MON; nra]|]. split; [apply exp_pos|]. split.
  - rewrite <- Z. split; intro H.
    + rewrite <- exp_0 in H. apply exp_inv in H. nra.
    + rewrite H, Rmult_0_r. apply exp_0.
  - rewrite <- O. split; intro H.
    + apply exp_inv in H. nra.
    + rewrite H. f_equal. ring.
Qed.
(** a pixel outside the design region has no influence *)
Theorem C64_only_the_design_region_counts :
  forall b Nx Ny eps eps', design_region (Nx * Ny) (b_design b) ->
  (forall k, (k < Nx * Ny)%nat -> b_design b k = 1 -> eps' k = eps k) ->
  density_factor b Nx Ny eps' = density_factor b Nx Ny eps /\
  density_exp_factor b Nx Ny eps' = density_exp_factor b Nx Ny eps.
Proof.
  intros b Nx Ny eps eps' HD HE. assert (E: rsum (Nx * Ny) (M_nd b eps') = rsum (Nx * Ny) (M_nd b eps)).
  { apply rsum_ext. intros k Hk. rewrite !(M_nd_in b (Nx * Ny)) by assumption. destruct HD as [HD _].
    destruct (HD k Hk) as [E|E]; rewrite E; [ring|]. rewrite HE by assumption. reflexivity. }
  unfold density_factor, density_exp_factor. rewrite E. split; reflexivity.
Qed.
Definition ex_bin : binarizer := mkBin (fun k => if Nat.eqb k 3 then 0 else 1) 5 2.
Example C64_met : 1 < b_eps_m ex_bin /\ 0 < b_exp_const ex_bin /\ design_region (3 * 2) (b_design ex_bin) /\
  between (3 * 2) (b_design ex_bin) (b_eps_m ex_bin) (fun k => if Nat.eqb k 1 then 2 else 5).
Proof.
  unfold ex_bin. cbn [b_eps_m b_exp_const b_design]. split; [lra|]. split; [lra|]. split.
  - split; [intros k _; destruct (Nat.eqb k 3); auto|exists 0%nat; split; [lia|reflexivity]].
  - intros k _ _. destruct (Nat.eqb k 1); lra.
Qed.

(* ------------------------------------------------------------------ *)
(** * C65 *)
Lemma conv_kernel n v m : convolve 2 smooth_kernel n v m = match m with O => 0 | S p => if Nat.ltb p n then v p else 0 end.
Proof.
  unfold convolve, smooth_kernel. cbn [rsum Nat.eqb]. destruct m as [|p].
  - cbn [Nat.leb andb]. destruct (Nat.ltb (0 - 0) n); ring.
  - cbn [Nat.leb andb]. replace (S p - 1)%nat with p by lia. destruct (Nat.ltb (S p - 0) n), (Nat.ltb p n); ring.
Qed.
Lemma conv_sum n v : rsum (2 + n - 1) (fun m => Rabs (convolve 2 smooth_kernel n v m)) = rsum n (fun k => Rabs (v k)).
Proof.
  replace (2 + n - 1)%nat with (S n) by lia. rewrite rsum_S_first, conv_kernel, Rabs_R0, Rplus_0_l. apply rsum_ext.
  intros k Hk. rewrite conv_kernel. destruct (Nat.ltb_spec k n); [reflexivity|lia].
Qed.
Lemma smoothness_mean b Nx Ny eps :
  smoothness_factor b Nx Ny eps = representable b Nx Ny (1 - rsum (Nx * Ny) (fun k => Rabs (M_nd b eps k)) / bin_N b Nx Ny).
Proof.
  unfold smoothness_factor. cbv zeta. f_equal.
  set (f := fun k => Rabs (M_nd b eps k)).
  assert (E1: rsum Nx (fun i => rsum (2 + Ny - 1) (fun n => Rabs (convolve 2 smooth_kernel Ny (fun j => M_nd b eps (i * Ny + j)%nat) n))) = rsum (Nx * Ny) f).
  { rewrite rsum_flat. apply rsum_ext. intros i _. apply conv_sum. }
  assert (E2: rsum Ny (fun j => rsum (2 + Nx - 1) (fun n => Rabs (convolve 2 smooth_kernel Nx (fun i => M_nd b eps (i * Ny + j)%nat) n))) = rsum (Nx * Ny) f).
  { rewrite rsum_flat, (rsum_swap Nx Ny). apply rsum_ext. intros j _. apply conv_sum. }
  rewrite E1, E2. unfold Rdiv. set (iN := / bin_N b Nx Ny). generalize iN. intro x. field.
Qed.
(** smoothness is the same function as density on permittivities between 1 and eps_m: it
    does not look at the arrangement. *)
Definition C65_property : Prop :=
  exists b Nx Ny eps, 1 < b_eps_m b /\ design_region (Nx * Ny) (b_design b) /\
    between (Nx * Ny) (b_design b) (b_eps_m b) eps /\ smoothness_factor b Nx Ny eps <> density_factor b Nx Ny eps.
Theorem C65_smoothness_is_density :
  forall b Nx Ny eps, 1 < b_eps_m b -> design_region (Nx * Ny) (b_design b) ->
  between (Nx * Ny) (b_design b) (b_eps_m b) eps -> smoothness_factor b Nx Ny eps = density_factor b Nx Ny eps.
Proof.
  intros b Nx Ny eps He HD HB. rewrite smoothness_mean. unfold density_factor. do 3 f_equal. apply rsum_ext. intros k Hk.
  rewrite (M_nd_in b (Nx * Ny)) by assumption. destruct HD as [HD _]. destruct (HD k Hk) as [E|E]; rewrite E.
  - rewrite Rmult_0_l. apply Rabs_R0.
  - assert (G := gray_range _ _ He (HB k Hk E)). rewrite Rmult_1_l. apply Rabs_pos_eq. lra.
Qed.
Theorem C65_smoothness_refuted : ~ C65_property.
Proof. intros (b & Nx & Ny & eps & H1 & H2 & H3 & H4). apply H4, C65_smoothness_is_density; assumption. Qed.

Lemma rsum_list n f : rsum n f = fold_right Rplus 0 (List.map f (List.seq 0 n)).
Proof.
  induction n as [|n IH]; [reflexivity|]. rewrite seq_S, map_app. cbn [rsum Nat.add List.map].
  rewrite fold_right_app. cbn [fold_right]. rewrite IH.
  assert (G: forall l a, fold_right Rplus a l = fold_right Rplus 0 l + a).
  { induction l as [|x l IHl]; intro a; cbn [fold_right]; [ring|]. rewrite IHl. ring. }
  rewrite (G _ (f n + 0)). ring.
Qed.
Lemma perm_sum l l' : Permutation l l' -> fold_right Rplus 0 l = fold_right Rplus 0 l'.
Proof. induction 1; cbn [fold_right]; [reflexivity|rewrite IHPermutation; reflexivity|ring|congruence]. Qed.
(** Shuffling the pixels (of the permittivity and the design region together) changes no
    factor, for any permittivities. *)
Theorem C65_arrangement_irrelevant :
  forall b Nx Ny eps (p : list nat), Permutation p (List.seq 0 (Nx * Ny)) ->
  let sh (v : rvec) := (fun k => v (nth k p 0%nat)) : rvec in
  let b' := mkBin (sh (b_design b)) (b_eps_m b) (b_exp_const b) in
  smoothness_factor b' Nx Ny (sh eps) = smoothness_factor b Nx Ny eps /\
  density_factor b' Nx Ny (sh eps) = density_factor b Nx Ny eps /\
  density_exp_factor b' Nx Ny (sh eps) = density_exp_factor b Nx Ny eps.
Proof.
  intros b Nx Ny eps p HP sh b'.
  assert (SH: forall f, rsum (Nx * Ny) (sh f) = rsum (Nx * Ny) f).
  { intro f. rewrite !rsum_list. assert (L: List.length p = (Nx * Ny)%nat) by (apply Permutation_length in HP; rewrite HP; apply seq_length).
    transitivity (fold_right Rplus 0 (List.map f p)). 2:{ apply perm_sum, Permutation_map, HP. }
    f_equal. rewrite <- L. unfold sh. rewrite <- (map_map (fun k => nth k p 0%nat) f). f_equal.
    apply (nth_ext _ _ 0%nat 0%nat); [rewrite map_length, seq_length; reflexivity|].
    intros n Hn. rewrite map_length, seq_length in Hn. rewrite (nth_indep _ 0%nat ((fun k => nth k p 0%nat) 0%nat)) by (rewrite map_length, seq_length; assumption).
    rewrite (map_nth (fun k => nth k p 0%nat)), seq_nth by assumption. reflexivity. }
  assert (EN: bin_N b' Nx Ny = bin_N b Nx Ny) by (unfold bin_N; cbn [b' b_design]; apply SH).
  assert (EM: forall k, M_nd b' (sh eps) k = sh (M_nd b eps) k) by reflexivity.
  assert (ER: forall (v : R), representable b' Nx Ny v = representable b Nx Ny v) by (intro v; unfold representable; rewrite EN; reflexivity).
  rewrite !smoothness_mean. unfold density_factor, density_exp_factor. rewrite !ER, EN.
  assert (E1: rsum (Nx * Ny) (M_nd b' (sh eps)) = rsum (Nx * Ny) (M_nd b eps)) by exact (SH (M_nd b eps)).
  assert (E2: rsum (Nx * Ny) (fun k => Rabs (M_nd b' (sh eps) k)) = rsum (Nx * Ny) (fun k => Rabs (M_nd b eps k))) by exact (SH (fun k => Rabs (M_nd b eps k))).
  rewrite E1, E2. split; [reflexivity|]. split; reflexivity.
Qed.
Example C65_met : Permutation [1; 0; 2; 3; 5; 4]%nat (List.seq 0 (3 * 2)) /\
  design_region (3 * 2) (b_design ex_bin) /\ between (3 * 2) (b_design ex_bin) (b_eps_m ex_bin) (fun k => if Nat.eqb k 1 then 2 else 5).
Proof.
  split; [cbn; apply perm_trans with [0; 1; 2; 3; 5; 4]%nat; [constructor|repeat constructor]|].
  destruct C64_met as (_ & _ & A & B). split; assumption.
Qed.

(* ------------------------------------------------------------------ *)
(** * C66 *)
Lemma objective_accepts_spec J args : (exists ob, Objective J args = Ok ob) <-> objective_accepts (pf_arity J) args = true.
Proof.
  unfold Objective, objective_accepts. destruct (Nat.eqb _ _); cbn [negb]; split; auto.
  - intros _. eexists. reflexivity.
  - intros [ob H]. discriminate.
  - discriminate.
Qed.
Definition C66_property : Prop :=
  forall (factor : rvec -> res R) J args, (exists ob, Objective J args = Ok ob) ->
    objective_accepts J_new_num_params args = true /\
    forall fields, List.length fields = List.length args -> exists v, J_new factor J fields = Ok v.
(** A binarized function that Objective accepts can never be evaluated: it has two arguments
    and looks for a third.  Called with at least three arguments it works when J does. *)
Theorem C66_accepted_means_unusable :
  forall factor J args fields, objective_accepts J_new_num_params args = true -> List.length fields = List.length args ->
  J_new factor J fields = Raise IndexError.
Proof.
  intros factor J args fields HA HL. unfold objective_accepts, J_new_num_params in HA. apply Nat.eqb_eq in HA.
  unfold J_new. destruct (nth_error fields 2) eqn:E; [|reflexivity]. exfalso.
  assert (H: nth_error fields 2 <> None) by (rewrite E; discriminate). apply nth_error_Some in H. lia.
Qed.
Theorem C66_direct_call_partial :
  forall (factor : rvec -> res R) J fields a v f, nth_error fields 2 = Some a -> pf_call J fields = Ok v ->
  factor (fun k => Re (a k)) = Ok f -> J_new factor J fields = Ok (v * f).
Proof. intros factor J fields a v f H1 H2 H3. unfold J_new. rewrite H1, H2. cbn [rbind]. rewrite H3. reflexivity. Qed.
(** and an objective of three or more arguments is refused once binarized *)
Theorem C66_three_arguments_refused :
  forall J args, (exists ob, Objective J args = Ok ob) -> (3 <= pf_arity J)%nat -> objective_accepts J_new_num_params args = false.
Proof.
  intros J args HO HJ. apply objective_accepts_spec in HO. unfold objective_accepts in *. apply Nat.eqb_eq in HO.
  apply Nat.eqb_neq. unfold J_new_num_params. lia.
Qed.
Theorem C66_binarized_objective_refuted : ~ C66_property.
Proof.
  intro H. set (a := mkArg Ez false grad_linear_Ez). set (J := mkFun 3 (fun _ => 1) (fun _ _ _ => RtoC 0)).
  destruct (H (fun _ => Ok 1) J [a; a; a]) as [H1 _]; [apply objective_accepts_spec; reflexivity|]. discriminate.
Qed.
Example C66_met : exists J args, (exists ob, Objective J args = Ok ob) /\ objective_accepts J_new_num_params args = true.
Proof.
  set (a := mkArg Ez false grad_linear_Ez). exists (mkFun 2 (fun _ => 1) (fun _ _ _ => RtoC 0)), [a; a].
  split; [apply objective_accepts_spec|]; reflexivity.
Qed.

(* ------------------------------------------------------------------ *)
(** * C77 *)
(** conversions: inverse to each other, and the same as those of filter.py *)
Theorem C77_conversions :
  forall eps_m, eps_m <> 1 ->
  (forall r, eps2rho_bar (rho_bar2eps r eps_m) eps_m = r) /\ (forall e, rho_bar2eps (eps2rho_bar e eps_m) eps_m = e) /\
  (forall r, rho_bar2eps r eps_m = rhob2eps r eps_m) /\ (forall e, eps2rho_bar e eps_m = eps2rho e eps_m) /\
  (forall r eta beta, rho_bar r eta beta = rhot2rhob r eta beta).
Proof.
  intros em H. unfold eps2rho_bar, rho_bar2eps, rhob2eps, eps2rho.
  split; [intro; field; lra|]. split; [intro; field; lra|]. split; [intro; ring|]. split; reflexivity.
Qed.
(** deps_drho_bar is not the derivative of rho_bar2eps *)
Definition C77_derivative_property : Prop :=
  forall r eps_m, 1 < eps_m -> is_derive (fun x => rho_bar2eps x eps_m) r (deps_drho_bar (rho_bar2eps r eps_m) eps_m).
Lemma rho_bar2eps_derive r eps_m : is_derive (fun x => rho_bar2eps x eps_m) r (eps_m - 1).
Proof. unfold rho_bar2eps. auto_derive; [exact I|ring]. Qed.
Theorem C77_derivative_partial :
  forall r eps_m, 1 < eps_m ->
  (is_derive (fun x => rho_bar2eps x eps_m) r (deps_drho_bar (rho_bar2eps r eps_m) eps_m) <-> eps_m = 2) /\
  is_derive (fun x => rho_bar2eps x eps_m) r (deps_drhob eps_m).
Proof.
  intros r em H. split; [|apply rho_bar2eps_derive]. split.
  - intro D. apply is_derive_unique in D. assert (D2 := rho_bar2eps_derive r em). apply is_derive_unique in D2. rewrite D2 in D.
    unfold deps_drho_bar in D. apply (Rmult_eq_compat_r (em - 1)) in D. unfold Rdiv in D. rewrite Rmult_assoc, Rinv_l in D by lra. nra.
  - intros ->. replace (deps_drho_bar (rho_bar2eps r 2) 2) with (2 - 1) by (unfold deps_drho_bar; field). apply rho_bar2eps_derive.
Qed.
Theorem C77_derivative_refuted : ~ C77_derivative_property.
Proof. intro H. assert (D := H 0 5 ltac:(lra)). apply (C77_derivative_partial 0 5 ltac:(lra)) in D. lra. Qed.
(** drho_bar_drho always raises *)
Theorem C77_drho_bar_drho_raises : forall rho eta beta, drho_bar_drho rho eta beta = Raise NameError.
Proof. reflexivity. Qed.
