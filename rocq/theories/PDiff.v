(** Differentiability of solutions of (widely) linear and Kerr systems with respect to
    a real parameter.  Nothing in this file refers to the code. *)
From Coq Require Import Reals Lra Lia List ZArith Arith Bool.
From Coquelicot Require Import Coquelicot.
From Verif Require Import Base Linear MCore Spec PCore PropsNl.
Local Open Scope nat_scope.

Definition n1 (n : nat) (v : vec) : R := rsum n (fun k => Cmod (v k)).
Definition wl (n : nat) (L11 L12 : mat) (h : vec) : vec := fun i => (mv n L11 h i + mv n L12 (vconj h) i)%C.

Lemma n1_ge0 n v : (0 <= n1 n v)%R.
Proof. apply rsum_ge0. intros; apply Cmod_ge_0. Qed.
Lemma n1_ext n u v : veq n u v -> n1 n u = n1 n v.
Proof. intro H. apply rsum_ext. intros k Hk. rewrite H by assumption. reflexivity. Qed.
Lemma n1_comp n v k : k < n -> (Cmod (v k) <= n1 n v)%R.
Proof. intro Hk. apply (rsum_term_le n (fun k => Cmod (v k)) k); [intros; apply Cmod_ge_0|assumption]. Qed.
Lemma n1_plus n u v : (n1 n (vplus u v) <= n1 n u + n1 n v)%R.
Proof. unfold n1. rewrite <- rsum_plus. apply rsum_le. intros; apply Cmod_triangle. Qed.
Lemma n1_scal n a v : n1 n (vscal a v) = (Cmod a * n1 n v)%R.
Proof. unfold n1. rewrite <- rsum_scal. apply rsum_ext. intros; apply Cmod_mult. Qed.
Lemma n1_le n u v : (forall k, k < n -> (Cmod (u k) <= Cmod (v k))%R) -> (n1 n u <= n1 n v)%R.
Proof. intro H. apply rsum_le. exact H. Qed.
Lemma n1_bound n v c : (forall k, k < n -> (Cmod (v k) <= c)%R) -> (n1 n v <= INR n * c)%R.
Proof. intro H. unfold n1. rewrite <- rsum_const. apply rsum_le. exact H. Qed.

(** matrices act boundedly *)
Lemma mv_bound n (A : mat) : exists K, (0 <= K)%R /\ forall v, (n1 n (mv n A v) <= K * n1 n v)%R.
Proof.
  exists (rsum n (fun i => rsum n (fun j => Cmod (A i j)))). split.
  - apply rsum_ge0; intros; apply rsum_ge0; intros; apply Cmod_ge_0.
  - intro v. unfold n1 at 1. rewrite <- rsum_scal_r. apply rsum_le. intros i Hi.
    unfold mv. eapply Rle_trans; [apply csum_mod|]. rewrite <- rsum_scal_r. apply rsum_le. intros j Hj.
    rewrite Cmod_mult. apply Rmult_le_compat_l; [apply Cmod_ge_0|]. apply n1_comp; assumption.
Qed.

Section Widely.
Variables (n : nat) (L11 L12 : mat).
Hypothesis HI : widely_injective n L11 L12.

Lemma real_nonsingular : nonsingular (2 * n) (fun i j => RtoC (Areal n L11 L12 i j)).
Proof.
  assert (HR: forall u : rvec, (forall i, i < 2 * n -> rmv (2 * n) (Areal n L11 L12) u i = 0%R) -> forall j, j < 2 * n -> u j = 0%R).
  { intros u Hu j Hj.
    assert (HU: forall k, k < n -> complex_of_real n u k = RtoC 0).
    { apply HI. intros r Hr. destruct (Areal_mv n L11 L12 u r Hr) as [E1 E2].
      rewrite Hu in E1, E2 by lia. apply C_ext; [rewrite <- E1|rewrite <- E2]; reflexivity. }
    destruct (Nat.lt_ge_cases j n) as [L|L].
    - assert (E := f_equal Re (HU j L)). unfold complex_of_real in E. autorewrite with reim in E. lra.
    - assert (E := f_equal Im (HU (j - n)%nat ltac:(lia))). unfold complex_of_real in E. autorewrite with reim in E.
      replace (n + (j - n))%nat with j in E by lia. lra. }
  apply injective_nonsingular. intros x Hx j Hj.
  assert (H1: forall j, j < 2 * n -> Re (x j) = 0%R).
  { apply (HR (fun j => Re (x j))). intros r Hr. specialize (Hx r Hr). apply (f_equal Re) in Hx. unfold mv in Hx.
    rewrite Re_csum in Hx. rewrite Re_RtoC in Hx. rewrite <- Hx. apply rsum_ext. intros; rewrite Re_RtoC_mult; reflexivity. }
  assert (H2: forall j, j < 2 * n -> Im (x j) = 0%R).
  { apply (HR (fun j => Im (x j))). intros r Hr. specialize (Hx r Hr). apply (f_equal Im) in Hx. unfold mv in Hx.
    rewrite Im_csum in Hx. rewrite Im_RtoC in Hx. rewrite <- Hx. apply rsum_ext. intros; rewrite Im_RtoC_mult; reflexivity. }
  apply C_ext; [rewrite H1|rewrite H2]; auto.
Qed.

Lemma complex_of_breal h k : k < n -> complex_of_real n (breal n h) k = h k.
Proof.
  intro Hk. unfold complex_of_real, breal. rewrite (proj2 (Nat.ltb_lt k n)) by assumption.
  rewrite (proj2 (Nat.ltb_ge (n + k) n)) by lia. replace (n + k - n)%nat with k by lia.
  apply C_ext; autorewrite with reim; ring.
Qed.
Lemma real_mv h i : i < 2 * n -> rmv (2 * n) (Areal n L11 L12) (breal n h) i = breal n (wl n L11 L12 h) i.
Proof.
  assert (W: forall r, r < n -> (csum n (fun c => L11 r c * complex_of_real n (breal n h) c) + csum n (fun c => L12 r c * Cconj (complex_of_real n (breal n h) c)))%C = wl n L11 L12 h r).
  { intros r Hr. unfold wl, mv. f_equal; apply csum_ext; intros c Hc; rewrite complex_of_breal by assumption; reflexivity. }
  intro Hi. unfold breal at 2. destruct (Nat.ltb_spec i n) as [L|L].
  - destruct (Areal_mv n L11 L12 (breal n h) i L) as [E _]. rewrite E, W by assumption. reflexivity.
  - destruct (Areal_mv n L11 L12 (breal n h) (i - n) ltac:(lia)) as [_ E]. replace (n + (i - n))%nat with i in E by lia.
    rewrite E, W by lia. reflexivity.
Qed.

(** the inverse of an injective real-linear map is bounded *)
Lemma widely_bound : exists K, (0 < K)%R /\ forall h, (n1 n h <= K * n1 n (wl n L11 L12 h))%R.
Proof.
  destruct real_nonsingular as [B [HB _]].
  destruct (mv_bound (2 * n) B) as [K0 [HK0 HK]].
  exists (2 * K0 + 1)%R. split; [lra|]. intro h.
  set (y := fun i => RtoC (breal n (wl n L11 L12 h) i)). set (x := fun i => RtoC (breal n h i)).
  assert (E: veq (2 * n) (mv (2 * n) B y) x).
  { intros k Hk. transitivity (mv (2 * n) B (mv (2 * n) (fun i j => RtoC (Areal n L11 L12 i j)) x) k).
    - apply mv_ext_v. intros i Hi. unfold y, x, mv. rewrite <- (real_mv h i Hi). unfold rmv. rewrite RtoC_rsum.
      apply csum_ext. intros; apply RtoC_mult.
    - rewrite <- mv_mm. rewrite (mv_ext (2 * n) _ mId x x HB (veq_refl _ x)) by assumption. apply mv_Id; assumption. }
  assert (E1: (n1 n h <= n1 (2 * n) x)%R).
  { unfold n1. replace (2 * n)%nat with (n + n)%nat by lia. rewrite rsum_app, <- rsum_plus. apply rsum_le. intros k Hk.
    unfold x, breal. rewrite (proj2 (Nat.ltb_lt k n)) by assumption. rewrite (proj2 (Nat.ltb_ge (n + k) n)) by lia.
    replace (n + k - n)%nat with k by lia. rewrite !Cmod_R. apply Cmod_le_ReIm. }
  assert (E2: (n1 (2 * n) y <= 2 * n1 n (wl n L11 L12 h))%R).
  { unfold n1. replace (2 * n)%nat with (n + n)%nat by lia. rewrite rsum_app, <- rsum_plus, <- rsum_scal. apply rsum_le. intros k Hk.
    unfold y, breal. rewrite (proj2 (Nat.ltb_lt k n)) by assumption. rewrite (proj2 (Nat.ltb_ge (n + k) n)) by lia.
    replace (n + k - n)%nat with k by lia. rewrite !Cmod_R.
    assert (H1 := Cmod_Re_le (wl n L11 L12 h k)). assert (H2 := Cmod_Im_le (wl n L11 L12 h k)). lra. }
  rewrite <- (n1_ext _ _ _ E) in E1. specialize (HK y). assert (P := n1_ge0 n (wl n L11 L12 h)).
  assert (K0 * n1 (2 * n) y <= K0 * (2 * n1 n (wl n L11 L12 h)))%R by (apply Rmult_le_compat_l; assumption). lra.
Qed.

Lemma widely_surj b : exists x, veq n (wl n L11 L12 x) b.
Proof.
  destruct real_nonsingular as [B HB].
  set (z := mv (2 * n) B (fun i => RtoC (breal n b i))).
  assert (E := inverse_solves (2 * n) _ B (fun i => RtoC (breal n b i)) HB). fold z in E.
  set (u := fun i => Re (z i)).
  assert (E': forall i, i < 2 * n -> rmv (2 * n) (Areal n L11 L12) u i = breal n b i).
  { intros i Hi. specialize (E i Hi). apply (f_equal Re) in E. unfold mv in E at 1. rewrite Re_csum, Re_RtoC in E. rewrite <- E.
    unfold rmv. apply rsum_ext. intros; unfold u. rewrite Re_RtoC_mult. reflexivity. }
  exists (complex_of_real n u). intros r Hr. destruct (Areal_mv n L11 L12 u r Hr) as [A1 A2].
  rewrite E' in A1, A2 by lia. unfold breal in A1, A2. rewrite (proj2 (Nat.ltb_lt r n)) in A1 by assumption.
  rewrite (proj2 (Nat.ltb_ge (n + r) n)) in A2 by lia. replace (n + r - n)%nat with r in A2 by lia.
  apply C_ext; symmetry; [exact A1|exact A2].
Qed.

Lemma wl_vminus_scal h t x' i : wl n L11 L12 (fun k => h k - RtoC t * x' k)%C i = (wl n L11 L12 h i - RtoC t * wl n L11 L12 x' i)%C.
Proof.
  unfold wl.
  change (fun k => (h k - RtoC t * x' k)%C) with (vminus h (vscal (RtoC t) x')). rewrite mv_vminus, mv_vscal.
  rewrite (mv_ext_v n L12 (vconj (vminus h (vscal (RtoC t) x'))) (vminus (vconj h) (vscal (RtoC t) (vconj x')))).
  - rewrite mv_vminus, mv_vscal. ring.
  - intros k _. unfold vconj, vminus, vscal. rewrite Cconj_minus, Cconj_mult, Cconj_RtoC. reflexivity.
Qed.

(** Implicit differentiation: if L h(t) + t r is small compared with |t| + |h(t)|, then
    h is differentiable at 0 and L h' = - r. *)
Lemma implicit_diff (h : R -> vec) (r : vec) :
  (forall eps, (0 < eps)%R -> exists delta, (0 < delta)%R /\ forall t, (Rabs t < delta)%R ->
     (n1 n (fun i => wl n L11 L12 (h t) i + RtoC t * r i)%C <= eps * (Rabs t + n1 n (h t)))%R) ->
  exists x', veq n (wl n L11 L12 x') (fun i => - r i)%C /\
  forall eps, (0 < eps)%R -> exists delta, (0 < delta)%R /\ forall t, (Rabs t < delta)%R ->
     (n1 n (fun k => h t k - RtoC t * x' k)%C <= eps * Rabs t)%R.
Proof.
  intro H. destruct widely_bound as [K [HK HB]]. destruct (widely_surj (fun i => - r i)%C) as [x' Hx'].
  exists x'. split; [assumption|].
  (* h = O(t) *)
  assert (HO: exists C d, (0 < C)%R /\ (0 < d)%R /\ forall t, (Rabs t < d)%R -> (n1 n (h t) <= C * Rabs t)%R).
  { assert (P2: (0 < 1 / (2 * K))%R) by (apply Rdiv_lt_0_compat; lra).
    destruct (H (1 / (2 * K))%R P2) as [d [Hd Hd']].
    exists (2 * K * (n1 n r + 1 / (2 * K)))%R, d. assert (P := n1_ge0 n r). split; [|split; [assumption|]].
    { apply Rmult_lt_0_compat; lra. }
    intros t Ht. specialize (Hd' t Ht). assert (B := HB (h t)).
    assert (T: (n1 n (wl n L11 L12 (h t)) <= n1 n (fun i => wl n L11 L12 (h t) i + RtoC t * r i)%C + Rabs t * n1 n r)%R).
    { rewrite <- (Cmod_R t), <- n1_scal. rewrite (n1_ext n (wl n L11 L12 (h t)) (vplus (fun i => wl n L11 L12 (h t) i + RtoC t * r i)%C (vscal (RtoC (-1)) (vscal (RtoC t) r)))).
      - eapply Rle_trans; [apply n1_plus|]. rewrite (n1_scal n (RtoC (-1))), Cmod_R. replace (Rabs (-1)) with 1%R by (rewrite Rabs_left; lra). lra.
      - intros k _. unfold vplus, vscal. apply C_ext; autorewrite with reim; ring. }
    assert (K * n1 n (wl n L11 L12 (h t)) <= K * (1 / (2 * K) * (Rabs t + n1 n (h t)) + Rabs t * n1 n r))%R by (apply Rmult_le_compat_l; lra).
    assert (K * (1 / (2 * K) * (Rabs t + n1 n (h t)) + Rabs t * n1 n r) = 1 / 2 * (Rabs t + n1 n (h t)) + K * (Rabs t * n1 n r))%R by (field; lra).
    assert (2 * K * (n1 n r + 1 / (2 * K)) * Rabs t = 2 * K * (Rabs t * n1 n r) + Rabs t)%R by (field; lra).
    lra. }
  destruct HO as [C [d0 [HC [Hd0 HO]]]].
  intros eps He. assert (P: (0 < eps / (K * (1 + C)))%R) by (apply Rdiv_lt_0_compat; [assumption|apply Rmult_lt_0_compat; lra]).
  destruct (H _ P) as [d1 [Hd1 Hd1']]. exists (Rmin d0 d1). split; [apply Rmin_glb_lt; assumption|].
  intros t Ht. assert (T0: (Rabs t < d0)%R) by (eapply Rlt_le_trans; [exact Ht|apply Rmin_l]).
  assert (T1: (Rabs t < d1)%R) by (eapply Rlt_le_trans; [exact Ht|apply Rmin_r]).
  specialize (HO t T0). specialize (Hd1' t T1).
  eapply Rle_trans; [apply HB|].
  rewrite (n1_ext n _ (fun i => wl n L11 L12 (h t) i + RtoC t * r i)%C).
  - assert (K * n1 n (fun i => wl n L11 L12 (h t) i + RtoC t * r i)%C <= K * (eps / (K * (1 + C)) * (Rabs t + C * Rabs t)))%R.
    { apply Rmult_le_compat_l; [lra|]. eapply Rle_trans; [exact Hd1'|]. apply Rmult_le_compat_l; lra. }
    replace (K * (eps / (K * (1 + C)) * (Rabs t + C * Rabs t)))%R with (eps * Rabs t)%R in H0; [exact H0|]. field. lra.
  - intros i Hi. rewrite wl_vminus_scal, Hx' by assumption. ring.
Qed.
End Widely.

(** v(t) = t v' + o(t) *)
Definition vdiff0 (n : nat) (v : R -> vec) (v' : vec) : Prop :=
  forall eps, (0 < eps)%R -> exists delta, (0 < delta)%R /\ forall t, (Rabs t < delta)%R ->
     (n1 n (fun k => v t k - RtoC t * v' k)%C <= eps * Rabs t)%R.

Lemma vdiff0_mv n A v v' : vdiff0 n v v' -> vdiff0 n (fun t => mv n A (v t)) (mv n A v').
Proof.
  intros H eps He. destruct (mv_bound n A) as [K [HK HB]].
  destruct (H (eps / (K + 1))%R ltac:(apply Rdiv_lt_0_compat; lra)) as [d [Hd H']]. exists d. split; [assumption|].
  intros t Ht. specialize (H' t Ht).
  rewrite (n1_ext n _ (mv n A (fun k => v t k - RtoC t * v' k)%C)).
  - eapply Rle_trans; [apply HB|]. assert (P := n1_ge0 n (fun k => (v t k - RtoC t * v' k)%C)).
    assert (K * n1 n (fun k => (v t k - RtoC t * v' k)%C) <= (K + 1) * (eps / (K + 1) * Rabs t))%R by (apply Rmult_le_compat; lra).
    replace ((K + 1) * (eps / (K + 1) * Rabs t))%R with (eps * Rabs t)%R in H0 by (field; lra). exact H0.
  - intros k _. change (fun k => (v t k - RtoC t * v' k)%C) with (vminus (v t) (vscal (RtoC t) v')).
    rewrite mv_vminus, mv_vscal. reflexivity.
Qed.
Lemma vdiff0_scal n a v v' : vdiff0 n v v' -> vdiff0 n (fun t => vscal a (v t)) (vscal a v').
Proof.
  intros H eps He. assert (P := Cmod_ge_0 a).
  destruct (H (eps / (Cmod a + 1))%R ltac:(apply Rdiv_lt_0_compat; lra)) as [d [Hd H']]. exists d. split; [assumption|].
  intros t Ht. specialize (H' t Ht).
  rewrite (n1_ext n _ (vscal a (fun k => v t k - RtoC t * v' k)%C)) by (intros k _; unfold vscal; ring).
  rewrite n1_scal. assert (Q := n1_ge0 n (fun k => (v t k - RtoC t * v' k)%C)).
  assert (Cmod a * n1 n (fun k => (v t k - RtoC t * v' k)%C) <= (Cmod a + 1) * (eps / (Cmod a + 1) * Rabs t))%R by (apply Rmult_le_compat; lra).
  replace ((Cmod a + 1) * (eps / (Cmod a + 1) * Rabs t))%R with (eps * Rabs t)%R in H0 by (field; lra). exact H0.
Qed.
Lemma vdiff0_ext n v w v' w' : (forall t, veq n (v t) (w t)) -> veq n v' w' -> vdiff0 n v v' -> vdiff0 n w w'.
Proof.
  intros H1 H2 H eps He. destruct (H eps He) as [d [Hd H']]. exists d. split; [assumption|]. intros t Ht.
  rewrite <- (n1_ext n (fun k => v t k - RtoC t * v' k)%C); [apply H'; assumption|].
  intros k Hk. rewrite (H1 t k Hk), (H2 k Hk). reflexivity.
Qed.
Lemma vdiff0_ext_loc n v w v' d0 : (0 < d0)%R -> (forall t, (Rabs t < d0)%R -> veq n (v t) (w t)) -> vdiff0 n v v' -> vdiff0 n w v'.
Proof.
  intros H0 H1 H eps He. destruct (H eps He) as [d [Hd H']]. exists (Rmin d d0). split; [apply Rmin_glb_lt; assumption|]. intros t Ht.
  rewrite <- (n1_ext n (fun k => v t k - RtoC t * v' k)%C).
  - apply H'. eapply Rlt_le_trans; [exact Ht|apply Rmin_l].
  - intros k Hk. rewrite (H1 t); [reflexivity| |assumption]. eapply Rlt_le_trans; [exact Ht|apply Rmin_r].
Qed.
(** v = O(t) *)
Lemma vdiff0_big n v v' : vdiff0 n v v' -> exists d, (0 < d)%R /\ forall t, (Rabs t < d)%R -> (n1 n (v t) <= (n1 n v' + 1) * Rabs t)%R.
Proof.
  intro H. destruct (H 1%R Rlt_0_1) as [d [Hd H']]. exists d. split; [assumption|]. intros t Ht. specialize (H' t Ht).
  rewrite (n1_ext n (v t) (vplus (fun k => v t k - RtoC t * v' k)%C (vscal (RtoC t) v'))) by (intros k _; unfold vplus, vscal; ring).
  eapply Rle_trans; [apply n1_plus|]. rewrite n1_scal, Cmod_R. lra.
Qed.

(** v(t) -> 0 *)
Definition vsmall0 (n : nat) (v : R -> vec) : Prop :=
  forall eps, (0 < eps)%R -> exists delta, (0 < delta)%R /\ forall t, (Rabs t < delta)%R -> (n1 n (v t) <= eps)%R.
Lemma vdiff0_small n v v' : vdiff0 n v v' -> vsmall0 n v.
Proof.
  intros H eps He. destruct (vdiff0_big n v v' H) as [d [Hd H']]. assert (P := n1_ge0 n v').
  exists (Rmin d (eps / (n1 n v' + 1))). split; [apply Rmin_glb_lt; [assumption|apply Rdiv_lt_0_compat; lra]|].
  intros t Ht. assert (T0: (Rabs t < d)%R) by (eapply Rlt_le_trans; [exact Ht|apply Rmin_l]).
  assert (T1: (Rabs t < eps / (n1 n v' + 1))%R) by (eapply Rlt_le_trans; [exact Ht|apply Rmin_r]).
  specialize (H' t T0). eapply Rle_trans; [exact H'|].
  apply Rle_trans with ((n1 n v' + 1) * (eps / (n1 n v' + 1)))%R; [apply Rmult_le_compat_l; lra|]. right. field. lra.
Qed.
Lemma vdiff0_at0 n v v' : vdiff0 n v v' -> forall k, k < n -> v 0%R k = RtoC 0.
Proof.
  intros H k Hk. destruct (vdiff0_big n v v' H) as [d [Hd H']]. specialize (H' 0%R). rewrite Rabs_R0 in H'. specialize (H' Hd).
  apply Cmod_eq_0. assert (P := n1_comp n (v 0%R) k Hk). assert (Q := Cmod_ge_0 (v 0%R k)). lra.
Qed.

Lemma n1_vmul n u v : (n1 n (fun k => u k * v k)%C <= n1 n u * n1 n v)%R.
Proof.
  change (n1 n u) with (rsum n (fun k => Cmod (u k))). rewrite <- (rsum_scal_r n (n1 n v) (fun k => Cmod (u k))). apply rsum_le. intros k Hk. rewrite Cmod_mult.
  apply Rmult_le_compat_l; [apply Cmod_ge_0|apply n1_comp; assumption].
Qed.
Lemma n1_opp n u : n1 n (fun k => - u k)%C = n1 n u.
Proof. apply rsum_ext. intros; apply Cmod_opp. Qed.

Definition mzero : mat := fun _ _ => RtoC 0.
Lemma wl_zero n A h i : wl n A mzero h i = mv n A h i.
Proof. unfold wl. unfold mv at 2. rewrite csum_0; [ring|]. intros; unfold mzero; ring. Qed.
Lemma nonsingular_widely n A : nonsingular n A -> widely_injective n A mzero.
Proof.
  intros HA x Hx. apply (nonsingular_injective n A x HA). intros i Hi. rewrite <- (wl_zero n A x i). exact (Hx i Hi).
Qed.

(** Solutions of (A + diag d(t)) X(t) = b are differentiable. *)
Lemma linear_solution_diff n A b (d : R -> vec) d' (X : R -> vec) delta0 :
  nonsingular n A -> vdiff0 n d d' -> (0 < delta0)%R ->
  (forall t, (Rabs t < delta0)%R -> forall i, i < n -> (mv n A (X t) i + d t i * X t i = b i)%C) ->
  exists x', (forall i, i < n -> mv n A x' i = - (d' i * X 0%R i))%C /\ vdiff0 n (fun t => vminus (X t) (X 0%R)) x'.
Proof.
  intros HA Hd Hd0 HX. set (h := fun t => vminus (X t) (X 0%R)). set (x0 := X 0%R).
  destruct (implicit_diff n A mzero (nonsingular_widely n A HA) h (fun i => d' i * x0 i)%C) as [x' [H1 H2]].
  { intros eps He. assert (P := n1_ge0 n x0).
    destruct (Hd (eps / (n1 n x0 + 1))%R ltac:(apply Rdiv_lt_0_compat; lra)) as [d1 [Hd1 Hd1']].
    destruct (vdiff0_small n d d' Hd eps He) as [d2 [Hd2 Hd2']].
    exists (Rmin delta0 (Rmin d1 d2)). split; [repeat apply Rmin_glb_lt; assumption|].
    intros t Ht. assert (T0: (Rabs t < delta0)%R) by (eapply Rlt_le_trans; [exact Ht|apply Rmin_l]).
    assert (T12: (Rabs t < Rmin d1 d2)%R) by (eapply Rlt_le_trans; [exact Ht|apply Rmin_r]).
    assert (T1: (Rabs t < d1)%R) by (eapply Rlt_le_trans; [exact T12|apply Rmin_l]).
    assert (T2: (Rabs t < d2)%R) by (eapply Rlt_le_trans; [exact T12|apply Rmin_r]).
    specialize (Hd1' t T1). specialize (Hd2' t T2).
    rewrite (n1_ext n _ (vplus (fun k => - ((d t k - RtoC t * d' k) * x0 k))%C (fun k => - (d t k * h t k))%C)).
    - eapply Rle_trans; [apply n1_plus|]. rewrite (n1_opp n (fun k => (d t k - RtoC t * d' k) * x0 k)%C), (n1_opp n (fun k => d t k * h t k)%C).
      assert (B1 := n1_vmul n (fun k => d t k - RtoC t * d' k)%C x0). assert (B2 := n1_vmul n (d t) (h t)).
      assert (n1 n (fun k => (d t k - RtoC t * d' k)%C) * n1 n x0 <= eps / (n1 n x0 + 1) * Rabs t * (n1 n x0 + 1))%R.
      { apply Rmult_le_compat; try lra. apply n1_ge0. }
      replace (eps / (n1 n x0 + 1) * Rabs t * (n1 n x0 + 1))%R with (eps * Rabs t)%R in H by (field; lra).
      assert (n1 n (d t) * n1 n (h t) <= eps * n1 n (h t))%R by (apply Rmult_le_compat_r; [apply n1_ge0|assumption]).
      cbv beta in B1, B2. lra.
    - intros i Hi. rewrite wl_zero. unfold h at 1. rewrite mv_vminus.
      assert (E1 := HX t T0 i Hi). assert (E0: (mv n A (X 0%R) i + d 0%R i * X 0%R i = b i)%C).
      { apply HX; [rewrite Rabs_R0; assumption|assumption]. }
      rewrite (vdiff0_at0 n d d' Hd i Hi) in E0.
      unfold vplus, h, vminus. fold x0. fold x0 in E0.
      replace (mv n A (X t) i) with (b i - d t i * X t i)%C by (rewrite <- E1; ring).
      replace (mv n A x0 i) with (b i)%C by (rewrite <- E0; ring). ring. }
  exists x'. split; [|exact H2]. intros i Hi. rewrite <- (wl_zero n A x' i). exact (H1 i Hi).
Qed.

(** ** Kerr systems *)
Definition kf (z : C) : C := (z * z * Cconj z)%C. (* |z|^2 z *)
Lemma kf_expand z w : kf (z + w)%C = (kf z + (RtoC 2 * (z * Cconj z) * w + z * z * Cconj w)
   + (RtoC 2 * z * w * Cconj w + w * w * Cconj z + w * w * Cconj w))%C.
Proof. unfold kf. rewrite Cconj_plus. apply C_ext; autorewrite with reim; ring. Qed.
Lemma kf_rem z w : (Cmod w <= 1)%R ->
  (Cmod (RtoC 2 * z * w * Cconj w + w * w * Cconj z + w * w * Cconj w)%C <= (3 * Cmod z + 1) * (Cmod w * Cmod w))%R.
Proof.
  intro Hw. eapply Rle_trans; [apply Cmod_triangle|].
  assert (A := Cmod_triangle (RtoC 2 * z * w * Cconj w)%C (w * w * Cconj z)%C).
  rewrite !Cmod_mult, !Cmod_conj, Cmod_R in A. rewrite (Rabs_right 2) in A by lra. rewrite !Cmod_mult, Cmod_conj.
  assert (P := Cmod_ge_0 w). assert (Q := Cmod_ge_0 z). assert (0 <= Cmod w * Cmod w)%R by nra. nra.
Qed.
Lemma kf_lip z w : (Cmod w <= 1)%R -> (Cmod (kf (z + w) - kf z)%C <= (3 * Cmod z ^ 2 + 3 * Cmod z + 1) * Cmod w)%R.
Proof.
  intro Hw. rewrite kf_expand.
  replace (kf z + (RtoC 2 * (z * Cconj z) * w + z * z * Cconj w) + (RtoC 2 * z * w * Cconj w + w * w * Cconj z + w * w * Cconj w) - kf z)%C
    with ((RtoC 2 * (z * Cconj z) * w + z * z * Cconj w) + (RtoC 2 * z * w * Cconj w + w * w * Cconj z + w * w * Cconj w))%C by ring.
  eapply Rle_trans; [apply Cmod_triangle|]. assert (A := Cmod_triangle (RtoC 2 * (z * Cconj z) * w)%C (z * z * Cconj w)%C).
  rewrite !Cmod_mult, !Cmod_conj, Cmod_R in A. rewrite (Rabs_right 2) in A by lra. assert (B := kf_rem z w Hw).
  assert (P := Cmod_ge_0 w). assert (Q := Cmod_ge_0 z). assert (Cmod w * Cmod w <= Cmod w)%R by nra.
  assert ((3 * Cmod z + 1) * (Cmod w * Cmod w) <= (3 * Cmod z + 1) * Cmod w)%R by (apply Rmult_le_compat_l; lra). nra.
Qed.

(** Continuous branches of solutions of (A + diag d(t)) X + (c0 + c(t)) |X|^2 X = b are
    differentiable. *)
Lemma kerr_solution_diff n A b (c0 : vec) (d c : R -> vec) d' c' (X : R -> vec) delta0 :
  let x0 := X 0%R in
  let L11 := mplus A (mdiag (fun i => RtoC 2 * c0 i * (x0 i * Cconj (x0 i)))%C) in
  let L12 := mdiag (fun i => c0 i * (x0 i * x0 i))%C in
  widely_injective n L11 L12 -> vdiff0 n d d' -> vdiff0 n c c' -> (0 < delta0)%R ->
  vsmall0 n (fun t => vminus (X t) x0) ->
  (forall t, (Rabs t < delta0)%R -> forall i, i < n -> (mv n A (X t) i + d t i * X t i + (c0 i + c t i) * kf (X t i) = b i)%C) ->
  exists x', (forall i, i < n -> wl n L11 L12 x' i = - (d' i * x0 i + c' i * kf (x0 i)))%C /\ vdiff0 n (fun t => vminus (X t) x0) x'.
Proof.
  intros x0 L11 L12 HI Hd Hc Hd0 Hcont HX. set (h := fun t => vminus (X t) x0).
  destruct (implicit_diff n L11 L12 HI h (fun i => d' i * x0 i + c' i * kf (x0 i))%C) as [x' [H1 H2]].
  2: { exists x'. split; [exact H1|exact H2]. }
  intros eps He. set (kx := fun i => kf (x0 i)).
  set (Cl := (3 * n1 n x0 ^ 2 + 3 * n1 n x0 + 1)%R).
  set (B := (1 + n1 n x0 + n1 n kx + n1 n c0 * (3 * n1 n x0 + 1) + Cl)%R).
  assert (P := n1_ge0 n x0). assert (Pk := n1_ge0 n kx). assert (Pc := n1_ge0 n c0).
  assert (PCl: (1 <= Cl)%R). { unfold Cl. assert (0 <= n1 n x0 ^ 2)%R by (apply pow2_ge_0). lra. }
  assert (PP: (0 <= n1 n c0 * (3 * n1 n x0 + 1))%R) by (apply Rmult_le_pos; lra).
  assert (PB: (1 <= B)%R) by (unfold B; lra).
  set (eta := Rmin 1 (eps / B)). assert (He1: (eta <= 1)%R) by apply Rmin_l.
  assert (Heta: (0 < eta)%R) by (apply Rmin_glb_lt; [lra|apply Rdiv_lt_0_compat; lra]).
  assert (HeB: (eta * B <= eps)%R).
  { apply Rle_trans with (eps / B * B)%R; [apply Rmult_le_compat_r; [lra|apply Rmin_r]|]. right; field; lra. }
  destruct (Hd eta Heta) as [d1 [Hd1 Hd1']]. destruct (Hc eta Heta) as [d2 [Hd2 Hd2']].
  destruct (vdiff0_small n d d' Hd eta Heta) as [d3 [Hd3 Hd3']]. destruct (vdiff0_small n c c' Hc eta Heta) as [d4 [Hd4 Hd4']].
  destruct (Hcont eta Heta) as [d5 [Hd5 Hd5']].
  exists (Rmin delta0 (Rmin d1 (Rmin d2 (Rmin d3 (Rmin d4 d5))))). split; [repeat apply Rmin_glb_lt; assumption|].
  intros t Ht.
  assert (T: (Rabs t < delta0 /\ Rabs t < d1 /\ Rabs t < d2 /\ Rabs t < d3 /\ Rabs t < d4 /\ Rabs t < d5)%R).
  { repeat match type of Ht with (_ < Rmin ?a ?b)%R => 
      let T := fresh "T" in assert (T: (Rabs t < a)%R) by (eapply Rlt_le_trans; [exact Ht|apply Rmin_l]);
      assert (Ht': (Rabs t < b)%R) by (eapply Rlt_le_trans; [exact Ht|apply Rmin_r]); clear Ht; rename Ht' into Ht end.
    repeat split; assumption. }
  destruct T as (T0 & T1 & T2 & T3 & T4 & T5). clear Ht.
  specialize (Hd1' t T1). specialize (Hd2' t T2). specialize (Hd3' t T3). specialize (Hd4' t T4). specialize (Hd5' t T5).
  fold (h t) in Hd5'. cbv beta in Hd5'.
  change (n1 n (vminus (X t) x0)) with (n1 n (h t)) in Hd5'.
  assert (Hh1: forall i, i < n -> (Cmod (h t i) <= 1)%R).
  { intros i Hi. apply Rle_trans with (n1 n (h t)); [apply n1_comp; assumption|lra]. }
  set (rem := fun i => (RtoC 2 * x0 i * h t i * Cconj (h t i) + h t i * h t i * Cconj (x0 i) + h t i * h t i * Cconj (h t i))%C).
  set (dif := fun i => (kf (x0 i + h t i) - kf (x0 i))%C).
  set (u1 := fun k => (- ((d t k - RtoC t * d' k) * x0 k))%C).
  set (u2 := fun k => (- (d t k * h t k))%C).
  set (u3 := fun k => (- (c0 k * rem k))%C).
  set (u4 := fun k => (- ((c t k - RtoC t * c' k) * kx k))%C).
  set (u5 := fun k => (- (c t k * dif k))%C).
  rewrite (n1_ext n _ (vplus u1 (vplus u2 (vplus u3 (vplus u4 u5))))).
  - eapply Rle_trans; [apply n1_plus|]. eapply Rle_trans; [apply Rplus_le_compat_l, n1_plus|].
    eapply Rle_trans; [apply Rplus_le_compat_l, Rplus_le_compat_l, n1_plus|].
    eapply Rle_trans; [apply Rplus_le_compat_l, Rplus_le_compat_l, Rplus_le_compat_l, n1_plus|].
    assert (Ph := n1_ge0 n (h t)). assert (Pt := Rabs_pos t).
    assert (B1: (n1 n u1 <= eta * Rabs t * n1 n x0)%R).
    { unfold u1. rewrite (n1_opp n (fun k => (d t k - RtoC t * d' k) * x0 k)%C).
      eapply Rle_trans; [exact (n1_vmul n (fun k => d t k - RtoC t * d' k)%C x0)|]. apply Rmult_le_compat_r; assumption. }
    assert (B2: (n1 n u2 <= eta * n1 n (h t))%R).
    { unfold u2. rewrite (n1_opp n (fun k => d t k * h t k)%C).
      eapply Rle_trans; [exact (n1_vmul n (d t) (h t))|]. apply Rmult_le_compat_r; assumption. }
    assert (B3: (n1 n u3 <= n1 n c0 * ((3 * n1 n x0 + 1) * (eta * n1 n (h t))))%R).
    { unfold u3. rewrite (n1_opp n (fun k => c0 k * rem k)%C).
      eapply Rle_trans; [exact (n1_vmul n c0 rem)|]. apply Rmult_le_compat_l; [assumption|].
      apply Rle_trans with (n1 n (vscal (RtoC ((3 * n1 n x0 + 1) * eta)) (h t))).
      - apply n1_le. intros k Hk. unfold vscal. rewrite Cmod_mult, Cmod_R, Rabs_right.
        2: { apply Rle_ge, Rmult_le_pos; lra. }
        eapply Rle_trans; [apply kf_rem, Hh1, Hk|]. assert (Q := n1_comp n x0 k Hk). assert (Q2 := n1_comp n (h t) k Hk).
        assert (Q3 := Cmod_ge_0 (h t k)). assert (Q4 := Cmod_ge_0 (x0 k)).
        replace ((3 * n1 n x0 + 1) * eta * Cmod (h t k))%R with ((3 * n1 n x0 + 1) * (eta * Cmod (h t k)))%R by ring.
        apply Rmult_le_compat; [lra|apply Rmult_le_pos; assumption|lra|]. apply Rmult_le_compat_r; [assumption|]. lra.
      - rewrite n1_scal, Cmod_R, Rabs_right by (apply Rle_ge, Rmult_le_pos; lra). right; ring. }
    assert (B4: (n1 n u4 <= eta * Rabs t * n1 n kx)%R).
    { unfold u4. rewrite (n1_opp n (fun k => (c t k - RtoC t * c' k) * kx k)%C).
      eapply Rle_trans; [exact (n1_vmul n (fun k => c t k - RtoC t * c' k)%C kx)|]. apply Rmult_le_compat_r; assumption. }
    assert (B5: (n1 n u5 <= eta * (Cl * n1 n (h t)))%R).
    { unfold u5. rewrite (n1_opp n (fun k => c t k * dif k)%C).
      eapply Rle_trans; [exact (n1_vmul n (c t) dif)|]. apply Rmult_le_compat; [apply n1_ge0|apply n1_ge0|assumption|].
      apply Rle_trans with (n1 n (vscal (RtoC Cl) (h t))).
      - apply n1_le. intros k Hk. unfold vscal. rewrite Cmod_mult, Cmod_R, Rabs_right by lra.
        eapply Rle_trans; [apply kf_lip, Hh1, Hk|]. apply Rmult_le_compat_r; [apply Cmod_ge_0|]. unfold Cl.
        assert (Q := n1_comp n x0 k Hk). assert (Q4 := Cmod_ge_0 (x0 k)). assert (Cmod (x0 k) ^ 2 <= n1 n x0 ^ 2)%R by (apply pow_incr; lra). lra.
      - rewrite n1_scal, Cmod_R, Rabs_right by lra. right; ring. }
    apply Rle_trans with (eta * B * (Rabs t + n1 n (h t)))%R.
    + apply Rle_trans with (eta * (n1 n x0 + n1 n kx) * Rabs t + eta * (1 + n1 n c0 * (3 * n1 n x0 + 1) + Cl) * n1 n (h t))%R.
      * lra.
      * rewrite (Rmult_plus_distr_l (eta * B)). apply Rplus_le_compat; apply Rmult_le_compat_r; try assumption; apply Rmult_le_compat_l; try lra; unfold B; lra.
    + apply Rmult_le_compat_r; [lra|assumption].
  - intros i Hi. unfold wl. unfold L11. rewrite mv_mplus, mv_diag by assumption. unfold L12. rewrite mv_diag by assumption.
    unfold h at 1. rewrite mv_vminus.
    assert (E1 := HX t T0 i Hi). assert (E0: (mv n A (X 0%R) i + d 0%R i * X 0%R i + (c0 i + c 0%R i) * kf (X 0%R i) = b i)%C).
    { apply HX; [rewrite Rabs_R0; assumption|assumption]. }
    rewrite (vdiff0_at0 n d d' Hd i Hi), (vdiff0_at0 n c c' Hc i Hi) in E0. fold x0 in E0.
    assert (EX: X t i = (x0 i + h t i)%C) by (unfold h, vminus; ring).
    rewrite EX in E1.
    replace (mv n A (X t) i) with (b i - d t i * (x0 i + h t i) - (c0 i + c t i) * kf (x0 i + h t i))%C by (rewrite <- E1; ring).
    replace (mv n A x0 i) with (b i - c0 i * kf (x0 i))%C by (rewrite <- E0; ring).
    unfold vplus, u1, u2, u3, u4, u5, kx, dif, rem, vconj. rewrite kf_expand. ring.
Qed.

(** ** Perturbation of non-singular matrices *)
Lemma nonsingular_perturb n A (d : R -> vec) : nonsingular n A -> vsmall0 n d ->
  exists delta, (0 < delta)%R /\ forall t, (Rabs t < delta)%R -> nonsingular n (mplus A (mdiag (d t))).
Proof.
  intros HA Hd. destruct (widely_bound n A mzero (nonsingular_widely n A HA)) as [K [HK HB]].
  destruct (Hd (1 / (2 * K))%R ltac:(apply Rdiv_lt_0_compat; lra)) as [dl [Hdl Hdl']]. exists dl. split; [assumption|].
  intros t Ht. specialize (Hdl' t Ht). apply injective_nonsingular. intros x Hx j Hj.
  assert (E: (n1 n (wl n A mzero x) <= 1 / (2 * K) * n1 n x)%R).
  { rewrite (n1_ext n _ (fun k => - (d t k * x k))%C).
    - rewrite (n1_opp n (fun k => d t k * x k)%C). eapply Rle_trans; [exact (n1_vmul n (d t) x)|]. apply Rmult_le_compat_r; [apply n1_ge0|assumption].
    - intros i Hi. rewrite wl_zero. specialize (Hx i Hi). rewrite mv_mplus, mv_diag in Hx by assumption.
      replace (mv n A x i) with ((mv n A x i + d t i * x i) - d t i * x i)%C by ring. rewrite Hx. ring. }
  assert (B := HB x). assert (P := n1_ge0 n x).
  assert (K * n1 n (wl n A mzero x) <= K * (1 / (2 * K) * n1 n x))%R by (apply Rmult_le_compat_l; lra).
  replace (K * (1 / (2 * K) * n1 n x))%R with (n1 n x / 2)%R in H by (field; lra).
  apply Cmod_eq_0. assert (Q := n1_comp n x j Hj). assert (Q2 := Cmod_ge_0 (x j)). lra.
Qed.

(** ** Functions of a real parameter *)
Lemma derive_of_bound (f : R -> R) (l : R) :
  (forall eps, (0 < eps)%R -> exists delta, (0 < delta)%R /\ forall t, (Rabs t < delta)%R -> (Rabs (f t - f 0 - t * l) <= eps * Rabs t)%R) ->
  is_derive f 0%R l.
Proof.
  intro H. apply is_derive_Reals. intros eps He. destruct (H (eps / 2)%R ltac:(lra)) as [d [Hd H']].
  exists (mkposreal d Hd). intros h Hh Hlt. specialize (H' h Hlt). rewrite Rplus_0_l.
  replace ((f h - f 0) / h - l)%R with ((f h - f 0 - h * l) / h)%R by (field; assumption).
  unfold Rdiv. rewrite Rabs_mult, Rabs_inv. assert (P: (0 < Rabs h)%R) by (apply Rabs_pos_lt; assumption).
  apply Rle_lt_trans with (eps / 2 * Rabs h * / Rabs h)%R.
  - apply Rmult_le_compat_r; [left; apply Rinv_0_lt_compat; assumption|assumption].
  - rewrite Rmult_assoc, Rinv_r by lra. lra.
Qed.
Lemma bound_of_derive (f : R -> R) (l : R) : is_derive f 0%R l ->
  forall eps, (0 < eps)%R -> exists delta, (0 < delta)%R /\ forall t, (Rabs t < delta)%R -> (Rabs (f t - f 0 - t * l) <= eps * Rabs t)%R.
Proof.
  intros H eps He. apply is_derive_Reals in H. destruct (H eps He) as [[d Hd] H']. simpl in H'. exists d. split; [assumption|].
  intros t Ht. destruct (Req_dec t 0) as [->|Hne].
  - rewrite Rabs_R0. replace (f 0 - f 0 - 0 * l)%R with 0%R by ring. rewrite Rabs_R0. lra.
  - specialize (H' t Hne Ht). rewrite Rplus_0_l in H'. assert (P: (0 < Rabs t)%R) by (apply Rabs_pos_lt; assumption).
    replace (f t - f 0 - t * l)%R with (((f t - f 0) / t - l) * t)%R by (field; assumption). rewrite Rabs_mult.
    apply Rmult_le_compat_r; lra.
Qed.
Lemma vdiff0_comp n (f : nat -> R -> R) (f' : nat -> R) : (forall k, k < n -> is_derive (f k) 0%R (f' k)) ->
  vdiff0 n (fun t k => RtoC (f k t - f k 0%R)) (fun k => RtoC (f' k)).
Proof.
  induction n; intros H eps He.
  - exists 1%R. split; [lra|]. intros t _. unfold n1; simpl. apply Rmult_le_pos; [lra|apply Rabs_pos].
  - destruct (IHn ltac:(intros; apply H; lia) (eps / 2)%R ltac:(lra)) as [d1 [Hd1 H1]].
    destruct (bound_of_derive (f n) (f' n) (H n ltac:(lia)) (eps / 2)%R ltac:(lra)) as [d2 [Hd2 H2]].
    exists (Rmin d1 d2). split; [apply Rmin_glb_lt; assumption|]. intros t Ht.
    assert (T1: (Rabs t < d1)%R) by (eapply Rlt_le_trans; [exact Ht|apply Rmin_l]).
    assert (T2: (Rabs t < d2)%R) by (eapply Rlt_le_trans; [exact Ht|apply Rmin_r]).
    specialize (H1 t T1). specialize (H2 t T2). unfold n1 in *. cbn [rsum].
    rewrite <- RtoC_mult, <- RtoC_minus, Cmod_R. lra.
Qed.
Lemma vdiff0_comp_scal n (a : R) (f : nat -> R -> R) (f' : nat -> R) : (forall k, k < n -> is_derive (f k) 0%R (f' k)) ->
  vdiff0 n (fun t k => RtoC (a * (f k t - f k 0%R))) (fun k => RtoC (a * f' k)).
Proof.
  intro H. apply (vdiff0_ext n (fun t => vscal (RtoC a) (fun k => RtoC (f k t - f k 0%R))) _ (vscal (RtoC a) (fun k => RtoC (f' k)))).
  - intros t k _. unfold vscal. rewrite <- RtoC_mult. reflexivity.
  - intros k _. unfold vscal. rewrite <- RtoC_mult. reflexivity.
  - apply vdiff0_scal, vdiff0_comp, H.
Qed.

(** chain rule for an objective of several fields *)
Lemma objective_derive n (J : list vec -> R) (F0 : list vec) (g : nat -> vec) (Fs : R -> list vec) (x' : nat -> vec) :
  is_gradient n J F0 g -> (forall t, List.length (Fs t) = List.length F0) ->
  (forall i, i < List.length F0 -> vdiff0 n (fun t => vminus (List.nth i (Fs t) vzero) (List.nth i F0 vzero)) (x' i)) ->
  is_derive (fun t => J (Fs t)) 0%R (rsum (List.length F0) (fun i => Re (csum n (fun k => g i k * x' i k)%C))).
Proof.
  intros HJ HL Hd. set (m := List.length F0).
  set (v := fun i t => vminus (List.nth i (Fs t) vzero) (List.nth i F0 vzero)).
  assert (HFC: forall t, field_change n F0 (Fs t) = rsum m (fun i => n1 n (v i t))) by reflexivity.
  set (Kx := rsum m (fun i => n1 n (x' i) + 1)%R).
  assert (PK: (0 <= Kx)%R) by (apply rsum_ge0; intros i _; assert (P := n1_ge0 n (x' i)); lra).
  (* all differences are O(t) and o(t)-approximated on a common interval *)
  assert (HO: exists d, (0 < d)%R /\ forall t, (Rabs t < d)%R -> (field_change n F0 (Fs t) <= Kx * Rabs t)%R).
  { assert (HO': forall q, q <= m -> exists d, (0 < d)%R /\ forall t, (Rabs t < d)%R -> (rsum q (fun i => n1 n (v i t)) <= rsum q (fun i => n1 n (x' i) + 1) * Rabs t)%R).
    { induction q; intro Hq.
      - exists 1%R. split; [lra|]. intros; simpl. lra.
      - destruct IHq as [d1 [Hd1 H1]]; [lia|]. destruct (vdiff0_big n (v q) (x' q) (Hd q Hq)) as [d2 [Hd2 H2]].
        exists (Rmin d1 d2). split; [apply Rmin_glb_lt; assumption|]. intros t Ht.
        assert (T1: (Rabs t < d1)%R) by (eapply Rlt_le_trans; [exact Ht|apply Rmin_l]).
        assert (T2: (Rabs t < d2)%R) by (eapply Rlt_le_trans; [exact Ht|apply Rmin_r]).
        specialize (H1 t T1). specialize (H2 t T2). cbn [rsum]. lra. }
    destruct (HO' m (le_n m)) as [d [Hd0 H]]. exists d. split; [assumption|]. intros t Ht. rewrite HFC. apply H, Ht. }
  destruct HO as [dO [HdO HO]].
  (* the linear part *)
  assert (HLin: forall eps, (0 < eps)%R -> exists d, (0 < d)%R /\ forall t, (Rabs t < d)%R -> forall q, q <= m ->
     (Rabs (rsum q (fun i => Re (csum n (fun k => g i k * v i t k)%C)) - t * rsum q (fun i => Re (csum n (fun k => g i k * x' i k)%C))) <= eps * Rabs t)%R).
  { intros eps He.
    assert (HL1: forall q, q <= m -> forall eta, (0 < eta)%R -> exists d, (0 < d)%R /\ forall t, (Rabs t < d)%R -> forall q', q' <= q ->
      (Rabs (rsum q' (fun i => Re (csum n (fun k => g i k * v i t k)%C)) - t * rsum q' (fun i => Re (csum n (fun k => g i k * x' i k)%C))) <= eta * Rabs t)%R).
    { induction q; intros Hq eta Heta.
      - exists 1%R. split; [lra|]. intros t _ q' Hq'. replace q' with 0 by lia. simpl. rewrite Rmult_0_r, Rminus_0_r, Rabs_R0.
        apply Rmult_le_pos; [lra|apply Rabs_pos].
      - destruct (IHq ltac:(lia) (eta / 2)%R ltac:(lra)) as [d1 [Hd1 H1]]. assert (P := n1_ge0 n (g q)).
        destruct (Hd q Hq (eta / 2 / (n1 n (g q) + 1))%R ltac:(apply Rdiv_lt_0_compat; lra)) as [d2 [Hd2 H2]].
        exists (Rmin d1 d2). split; [apply Rmin_glb_lt; assumption|]. intros t Ht q' Hq'.
        assert (T1: (Rabs t < d1)%R) by (eapply Rlt_le_trans; [exact Ht|apply Rmin_l]).
        assert (T2: (Rabs t < d2)%R) by (eapply Rlt_le_trans; [exact Ht|apply Rmin_r]).
        assert (Pt := Rabs_pos t).
        destruct (Nat.eq_dec q' (S q)) as [->|Hne]; [|eapply Rle_trans; [apply H1; [assumption|lia]|]; apply Rmult_le_compat_r; lra].
        specialize (H1 t T1 q (le_n q)). specialize (H2 t T2). cbn [rsum].
        assert (B: (Rabs (Re (csum n (fun k => g q k * v q t k)%C) - t * Re (csum n (fun k => g q k * x' q k)%C)) <= eta / 2 * Rabs t)%R).
        { rewrite <- Re_RtoC_mult, <- csum_scal, <- Re_minus, <- csum_minus.
          eapply Rle_trans; [apply Cmod_Re_le|].
          rewrite (csum_ext n _ (fun k => g q k * (v q t k - RtoC t * x' q k))%C) by (intros; ring).
          eapply Rle_trans; [apply csum_mod|].
          change (rsum n (fun k => Cmod (g q k * (v q t k - RtoC t * x' q k))%C)) with (n1 n (fun k => g q k * (v q t k - RtoC t * x' q k))%C).
          eapply Rle_trans; [exact (n1_vmul n (g q) (fun k => v q t k - RtoC t * x' q k)%C)|].
          apply Rle_trans with ((n1 n (g q) + 1) * (eta / 2 / (n1 n (g q) + 1) * Rabs t))%R.
          - apply Rmult_le_compat; try lra; [apply n1_ge0|exact H2].
          - right. field. lra. }
        match goal with |- (Rabs (?a + ?b - t * (?c + ?d)) <= _)%R => replace (a + b - t * (c + d))%R with ((a - t * c) + (b - t * d))%R by ring end.
        eapply Rle_trans; [apply Rabs_triang|]. lra. }
    destruct (HL1 m (le_n m) eps He) as [d [Hd0 H]]. exists d. split; [assumption|]. intros t Ht q Hq. apply H; assumption. }
  apply derive_of_bound. intros eps He.
  assert (PK1: (0 < eps / 2 / (Kx + 1))%R) by (apply Rdiv_lt_0_compat; lra).
  destruct (HJ (eps / 2 / (Kx + 1))%R PK1) as [dJ [HdJ HJ']].
  destruct (HLin (eps / 2)%R ltac:(lra)) as [dL [HdL HL']].
  exists (Rmin dO (Rmin dL (dJ / (Kx + 1)))). split.
  { repeat apply Rmin_glb_lt; try assumption. apply Rdiv_lt_0_compat; lra. }
  assert (H00: J (Fs 0%R) = J F0).
  { assert (Z: field_change n F0 (Fs 0%R) = 0%R).
    { assert (A := HO 0%R). rewrite Rabs_R0 in A. specialize (A HdO). rewrite Rmult_0_r in A. apply Rle_antisym; [exact A|].
      apply rsum_ge0. intros; apply rsum_ge0. intros; apply Cmod_ge_0. }
    assert (E := HJ' (Fs 0%R) (HL 0%R) ltac:(rewrite Z; assumption)). rewrite Z, Rmult_0_r in E.
    assert (Z2: rsum m (fun i => Re (csum n (fun k => g i k * v i 0%R k)%C)) = 0%R).
    { apply rsum_0. intros i Hi. rewrite csum_0; [reflexivity|]. intros k Hk. rewrite (vdiff0_at0 n (v i) (x' i) (Hd i Hi) k Hk). ring. }
    change (Rabs (J (Fs 0%R) - J F0 - rsum m (fun i => Re (csum n (fun k => g i k * v i 0%R k)%C))) <= 0)%R in E. rewrite Z2 in E.
    assert (A := Rabs_pos (J (Fs 0%R) - J F0 - 0)). assert (E2: Rabs (J (Fs 0%R) - J F0 - 0) = 0%R) by lra.
    destruct (Req_dec (J (Fs 0%R) - J F0 - 0)%R 0) as [E3|E3]; [lra|]. apply Rabs_no_R0 in E3. lra. }
  intros t Ht.
  assert (T0: (Rabs t < dO)%R) by (eapply Rlt_le_trans; [exact Ht|apply Rmin_l]).
  assert (T12: (Rabs t < Rmin dL (dJ / (Kx + 1)))%R) by (eapply Rlt_le_trans; [exact Ht|apply Rmin_r]).
  assert (T1: (Rabs t < dL)%R) by (eapply Rlt_le_trans; [exact T12|apply Rmin_l]).
  assert (T2: (Rabs t < dJ / (Kx + 1))%R) by (eapply Rlt_le_trans; [exact T12|apply Rmin_r]).
  specialize (HO t T0). assert (Pt := Rabs_pos t).
  assert (HF: (field_change n F0 (Fs t) < dJ)%R).
  { eapply Rle_lt_trans; [exact HO|]. apply Rle_lt_trans with ((Kx + 1) * Rabs t)%R; [apply Rmult_le_compat_r; lra|].
    apply Rlt_le_trans with ((Kx + 1) * (dJ / (Kx + 1)))%R; [apply Rmult_lt_compat_l; lra|]. right; field; lra. }
  assert (E1 := HJ' (Fs t) (HL t) HF). assert (E2 := HL' t T1 m (le_n m)).
  change (Rabs (J (Fs t) - J F0 - rsum m (fun i => Re (csum n (fun k => g i k * v i t k)%C))) <= eps / 2 / (Kx + 1) * field_change n F0 (Fs t))%R in E1.
  rewrite H00. set (Ln := rsum m (fun i => Re (csum n (fun k => (g i k * v i t k)%C)))) in *. set (L' := rsum m (fun i => Re (csum n (fun k => (g i k * x' i k)%C)))) in *.
  replace (J (Fs t) - J F0 - t * L')%R with ((J (Fs t) - J F0 - Ln) + (Ln - t * L'))%R by ring.
  eapply Rle_trans; [apply Rabs_triang|].
  assert (E3: (eps / 2 / (Kx + 1) * field_change n F0 (Fs t) <= eps / 2 * Rabs t)%R).
  { apply Rle_trans with (eps / 2 / (Kx + 1) * ((Kx + 1) * Rabs t))%R.
    - apply Rmult_le_compat_l; [lra|]. eapply Rle_trans; [exact HO|]. apply Rmult_le_compat_r; lra.
    - right; field; lra. }
  lra.
Qed.
