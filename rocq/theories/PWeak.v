(** Contraction estimates in the Euclidean norm for the Kerr system with a weak nonlinearity. *)
From Coq Require Import Reals Lra Lia List Arith ClassicalEpsilon.
From Coquelicot Require Import Coquelicot.
From Verif Require Import Base Linear MCore PropsNl PDiff PImpl.
Local Open Scope nat_scope.

(** ** The Euclidean norm *)

Lemma sqrt_pair_triangle a b c d : (0 <= a)%R -> (0 <= b)%R -> (0 <= c)%R -> (0 <= d)%R ->
  (sqrt ((a + b) ^ 2 + (c + d) ^ 2) <= sqrt (a ^ 2 + c ^ 2) + sqrt (b ^ 2 + d ^ 2))%R.
Proof.
  intros Ha Hb Hc Hd. assert (P1 := sqrt_pos (a ^ 2 + c ^ 2)). assert (P2 := sqrt_pos (b ^ 2 + d ^ 2)).
  apply Rsqr_incr_0_var; [|lra]. rewrite Rsqr_sqrt by nra.
  unfold Rsqr. replace ((sqrt (a ^ 2 + c ^ 2) + sqrt (b ^ 2 + d ^ 2)) * (sqrt (a ^ 2 + c ^ 2) + sqrt (b ^ 2 + d ^ 2)))%R
    with (sqrt (a ^ 2 + c ^ 2) * sqrt (a ^ 2 + c ^ 2) + sqrt (b ^ 2 + d ^ 2) * sqrt (b ^ 2 + d ^ 2) + 2 * (sqrt (a ^ 2 + c ^ 2) * sqrt (b ^ 2 + d ^ 2)))%R by ring.
  rewrite !sqrt_sqrt by nra. rewrite <- sqrt_mult by nra.
  assert (Q : (a * b + c * d <= sqrt ((a ^ 2 + c ^ 2) * (b ^ 2 + d ^ 2)))%R).
  { rewrite <- (sqrt_Rsqr (a * b + c * d)) by nra. apply sqrt_le_1_alt. unfold Rsqr. assert (0 <= (a * d - b * c) ^ 2)%R by apply pow2_ge_0. nra. }
  nra.
Qed.
Lemma nrm_sq n v : (nrm n v ^ 2 = rsum n (fun k => Cnorm2 (v k)))%R.
Proof. unfold nrm. rewrite <- Rsqr_pow2. apply Rsqr_sqrt. apply rsum_ge0. intros; apply Cnorm2_ge0. Qed.
Lemma Cmod_sq z : (Cmod z ^ 2 = Cnorm2 z)%R.
Proof. unfold Cmod. rewrite <- Rsqr_pow2. rewrite Rsqr_sqrt; [reflexivity|]. assert (H := Cnorm2_ge0 z). exact H. Qed.
Lemma nrm_S n v : nrm (S n) v = sqrt (nrm n v ^ 2 + Cmod (v n) ^ 2).
Proof. rewrite nrm_sq, Cmod_sq. reflexivity. Qed.
Lemma nrm_plus n u v : (nrm n (vplus u v) <= nrm n u + nrm n v)%R.
Proof.
  induction n as [|n IH].
  - unfold nrm. simpl. rewrite sqrt_0. lra.
  - rewrite !nrm_S. eapply Rle_trans; [|apply sqrt_pair_triangle; first [apply nrm_ge0|apply Cmod_ge_0]].
    apply sqrt_le_1_alt. assert (A := nrm_ge0 n (vplus u v)). assert (B := Cmod_ge_0 (vplus u v n)). assert (T : (Cmod (vplus u v n) <= Cmod (u n) + Cmod (v n))%R) by apply Cmod_triangle.
    assert (nrm n (vplus u v) ^ 2 <= (nrm n u + nrm n v) ^ 2)%R by (apply pow_incr; lra). assert (Cmod (vplus u v n) ^ 2 <= (Cmod (u n) + Cmod (v n)) ^ 2)%R by (apply pow_incr; lra). lra.
Qed.
Lemma nrm_le n u v c : (0 <= c)%R -> (forall k, k < n -> (Cmod (u k) <= c * Cmod (v k))%R) -> (nrm n u <= c * nrm n v)%R.
Proof.
  intros Hc H. apply Rsqr_incr_0_var; [|apply Rmult_le_pos; [exact Hc|apply nrm_ge0]].
  rewrite !Rsqr_pow2, Rpow_mult_distr, !nrm_sq, <- rsum_scal. apply rsum_le. intros k Hk. rewrite <- !Cmod_sq, <- Rpow_mult_distr. apply pow_incr. split; [apply Cmod_ge_0|apply H, Hk].
Qed.
Lemma nrm_n1 n v : (nrm n v <= n1 n v)%R.
Proof.
  induction n as [|n IH]; [unfold nrm, n1; simpl; rewrite sqrt_0; lra|]. rewrite nrm_S. unfold n1. cbn [rsum]. fold (n1 n v).
  assert (A := nrm_ge0 n v). assert (B := Cmod_ge_0 (v n)). assert (C := n1_ge0 n v).
  rewrite <- (sqrt_Rsqr (n1 n v + Cmod (v n))) by lra. apply sqrt_le_1_alt. unfold Rsqr. nra.
Qed.
Lemma nrm_sub n u v w : (nrm n (vminus u w) <= nrm n (vminus u v) + nrm n (vminus v w))%R.
Proof. rewrite (nrm_ext n (vminus u w) (vplus (vminus u v) (vminus v w))) by (intros k _; unfold vminus, vplus; ring). apply nrm_plus. Qed.
Lemma nrm_sub_sym n u v : nrm n (vminus u v) = nrm n (vminus v u).
Proof.
  assert (H : forall a b, (nrm n (vminus a b) <= nrm n (vminus b a))%R).
  { intros a b. rewrite <- (Rmult_1_l (nrm n (vminus b a))). apply nrm_le; [lra|]. intros k _. right. unfold vminus. rewrite Rmult_1_l. rewrite <- (Cmod_opp (b k - a k)%C). f_equal. ring. }
  apply Rle_antisym; apply H.
Qed.
Lemma nrm_sub_le n u v : (nrm n (vminus u v) <= nrm n u + nrm n v)%R.
Proof.
  eapply Rle_trans; [apply (nrm_sub n u (fun _ => RtoC 0))|]. rewrite (nrm_sub_sym n (fun _ => RtoC 0)).
  right. f_equal; apply nrm_ext; intros k _; unfold vminus; ring.
Qed.
Lemma nrm_sub_ge n u v : (nrm n u <= nrm n v + nrm n (vminus u v))%R.
Proof. rewrite (nrm_ext n u (vplus v (vminus u v))) at 1 by (intros k _; unfold vminus, vplus; ring). apply nrm_plus. Qed.

(** ** Stability *)

(** K bounds the inverse of the matrix *)
Definition stable (n : nat) (A : mat) (K : R) : Prop := forall x, (nrm n x <= K * nrm n (mv n A x))%R.

Lemma nonsingular_stable n A : nonsingular n A -> exists K, (0 < K)%R /\ stable n A K.
Proof.
  intros [B [HB _]]. exists (1 + rsum n (fun i => rsum n (fun j => Cmod (B i j))))%R.
  assert (P : (0 <= rsum n (fun i => rsum n (fun j => Cmod (B i j))))%R) by (apply rsum_ge0; intros; apply rsum_ge0; intros; apply Cmod_ge_0).
  split; [lra|]. intro x. set (y := mv n A x).
  assert (E : veq n x (mv n B y)).
  { intros k Hk. unfold y. rewrite <- mv_mm. rewrite (mv_ext n (mm n B A) mId x x HB (fun _ _ => eq_refl) k Hk), mv_Id by assumption. reflexivity. }
  rewrite (nrm_ext n x _ E). eapply Rle_trans; [apply nrm_n1|]. unfold n1. eapply Rle_trans; [|apply Rmult_le_compat_r; [apply nrm_ge0|apply (Rplus_le_compat_r _ 0 1); lra]].
  rewrite Rplus_0_l, <- rsum_scal_r. apply rsum_le. intros i Hi. unfold mv. eapply Rle_trans; [apply csum_mod|]. rewrite <- rsum_scal_r. apply rsum_le. intros j Hj.
  rewrite Cmod_mult. apply Rmult_le_compat_l; [apply Cmod_ge_0|]. apply nrm_comp_le, Hj.
Qed.

(** ** The Kerr system (A + diag(g |E|^2)) x = b *)
Section Weak.
Variables (n : nat) (A : mat) (b : vec) (g : rvec) (K G : R).
Hypothesis HK0 : (0 < K)%R.
Hypothesis HK : stable n A K.
Hypothesis HG : forall k, k < n -> (Rabs (g k) <= G)%R.
Hypothesis HG0 : (0 <= G)%R.
Let r := (2 * K * nrm n b)%R.
Hypothesis HW : (K * G * r ^ 2 <= 1 / 16)%R.

Definition kmat (E : vec) : mat := mplus A (mdiag (fun k => RtoC (g k * Cnorm2 (E k)))).
Definition kres (E x : vec) : vec := mv n (kmat E) x.

Lemma r_ge0 : (0 <= r)%R.
Proof. unfold r. assert (H := nrm_ge0 n b). nra. Qed.
Lemma kres_eq E x k : k < n -> kres E x k = (mv n A x k + RtoC (g k * Cnorm2 (E k)) * x k)%C.
Proof. intro Hk. unfold kres, kmat. rewrite mv_mplus, mv_diag by exact Hk. reflexivity. Qed.
Lemma comp_sq n0 E k : k < n0 -> (Cnorm2 (E k) <= nrm n0 E ^ 2)%R.
Proof. intro Hk. rewrite <- Cmod_sq. apply pow_incr. split; [apply Cmod_ge_0|apply nrm_comp_le, Hk]. Qed.

Lemma weak_stable E x : (nrm n E <= r)%R -> (nrm n x <= 16 / 15 * K * nrm n (kres E x))%R.
Proof.
  intro HE. assert (R0 := r_ge0). assert (H := HK x).
  assert (D : (nrm n (mv n A x) <= nrm n (kres E x) + G * r ^ 2 * nrm n x)%R).
  { eapply Rle_trans; [apply (nrm_sub_ge n _ (kres E x))|]. apply Rplus_le_compat_l. apply nrm_le; [apply Rmult_le_pos; [exact HG0|apply pow2_ge_0]|].
    intros k Hk. unfold vminus. rewrite kres_eq by exact Hk.
    replace (mv n A x k - (mv n A x k + RtoC (g k * Cnorm2 (E k)) * x k))%C with (- (RtoC (g k * Cnorm2 (E k)) * x k))%C by ring.
    rewrite Cmod_opp, Cmod_mult, Cmod_R, Rabs_mult, (Rabs_pos_eq (Cnorm2 _)) by apply Cnorm2_ge0.
    apply Rmult_le_compat_r; [apply Cmod_ge_0|]. apply Rmult_le_compat; [apply Rabs_pos|apply Cnorm2_ge0|apply HG, Hk|].
    eapply Rle_trans; [apply (comp_sq n), Hk|]. apply pow_incr. split; [apply nrm_ge0|exact HE]. }
  apply (Rmult_le_compat_l K) in D; [|lra]. assert (X := nrm_ge0 n x).
  assert (K * (G * r ^ 2 * nrm n x) <= 1 / 16 * nrm n x)%R by (replace (K * (G * r ^ 2 * nrm n x))%R with (K * G * r ^ 2 * nrm n x)%R by ring; apply Rmult_le_compat_r; assumption).
  lra.
Qed.
Lemma weak_nonsingular E : (nrm n E <= r)%R -> nonsingular n (kmat E).
Proof.
  intro HE. apply injective_nonsingular. intros x Hx. apply nrm_eq0. assert (H := weak_stable E x HE).
  rewrite (nrm_zero n (kres E x)) in H by exact Hx. assert (X := nrm_ge0 n x). lra.
Qed.
Lemma weak_size E x : (nrm n E <= r)%R -> veq n (kres E x) b -> (nrm n x <= 8 / 15 * r)%R.
Proof.
  intros HE Hx. assert (H := weak_stable E x HE). rewrite (nrm_ext n _ _ Hx) in H. unfold r. lra.
Qed.
Lemma norm2_diff u v : (Rabs (Cnorm2 u - Cnorm2 v) <= (Cmod u + Cmod v) * Cmod (u - v)%C)%R.
Proof.
  rewrite <- !Cmod_sq. replace (Cmod u ^ 2 - Cmod v ^ 2)%R with ((Cmod u + Cmod v) * (Cmod u - Cmod v))%R by ring.
  assert (A1 := Cmod_ge_0 u). assert (A2 := Cmod_ge_0 v). rewrite Rabs_mult, (Rabs_pos_eq (Cmod u + Cmod v)) by lra. apply Rmult_le_compat_l; [lra|].
  apply Rabs_le. assert (T1 := Cmod_triangle (u - v)%C v). assert (T2 := Cmod_triangle (v - u)%C u).
  replace (u - v + v)%C with u in T1 by ring. replace (v - u + u)%C with v in T2 by ring. rewrite <- (Cmod_opp (v - u)%C) in T2. replace (- (v - u))%C with (u - v)%C in T2 by ring. lra.
Qed.
(** the difference of two steps *)
Lemma weak_step E E' x x' : (nrm n E <= r)%R -> veq n (kres E x) b -> veq n (kres E' x') b ->
  (nrm n (vminus x x') <= 16 / 15 * (K * G * (nrm n E + nrm n E') * nrm n (vminus E E') * nrm n x'))%R.
Proof.
  intros HE Hx Hx'. assert (H := weak_stable E (vminus x x') HE).
  assert (D : (nrm n (kres E (vminus x x')) <= G * (nrm n E + nrm n E') * nrm n (vminus E E') * nrm n x')%R).
  { assert (P1 := nrm_ge0 n E). assert (P2 := nrm_ge0 n E'). assert (P3 := nrm_ge0 n (vminus E E')).
    apply nrm_le; [apply Rmult_le_pos; [apply Rmult_le_pos; lra|exact P3]|]. intros k Hk.
    assert (E1 : kres E (vminus x x') k = (RtoC (g k * (Cnorm2 (E' k) - Cnorm2 (E k))) * x' k)%C).
    { rewrite kres_eq by exact Hk. rewrite mv_vminus. unfold vminus. assert (A1 := Hx k Hk). assert (A2 := Hx' k Hk). rewrite kres_eq in A1, A2 by exact Hk.
      replace (mv n A x k) with (b k - RtoC (g k * Cnorm2 (E k)) * x k)%C by (rewrite <- A1; ring). replace (mv n A x' k) with (b k - RtoC (g k * Cnorm2 (E' k)) * x' k)%C by (rewrite <- A2; ring).
      replace (RtoC (g k * (Cnorm2 (E' k) - Cnorm2 (E k)))) with (RtoC (g k * Cnorm2 (E' k)) - RtoC (g k * Cnorm2 (E k)))%C by (rewrite <- RtoC_minus; f_equal; ring). ring. }
    rewrite E1, Cmod_mult, Cmod_R, Rabs_mult. apply Rmult_le_compat_r; [apply Cmod_ge_0|].
    rewrite Rmult_assoc. apply Rmult_le_compat; [apply Rabs_pos|apply Rabs_pos|apply HG, Hk|].
    rewrite Rabs_minus_sym. eapply Rle_trans; [apply norm2_diff|]. apply Rmult_le_compat.
    - assert (Q1 := Cmod_ge_0 (E k)). assert (Q2 := Cmod_ge_0 (E' k)). lra.
    - apply Cmod_ge_0.
    - apply Rplus_le_compat; apply nrm_comp_le, Hk.
    - apply (nrm_comp_le n (vminus E E') k Hk). }
  apply (Rmult_le_compat_l (16 / 15 * K)) in D; [|lra]. lra.
Qed.

(** with everything in the ball *)
Lemma weak_contract E E' x x' : (nrm n E <= r)%R -> (nrm n E' <= 8 / 15 * r)%R -> veq n (kres E x) b -> veq n (kres E' x') b ->
  (nrm n x' <= 8 / 15 * r)%R -> (nrm n (vminus x x') <= 1 / 10 * nrm n (vminus E E'))%R.
Proof.
  intros HE HE' Hx Hx' HX. assert (H := weak_step E E' x x' HE Hx Hx'). eapply Rle_trans; [exact H|].
  assert (P1 := nrm_ge0 n E). assert (P2 := nrm_ge0 n E'). assert (P3 := nrm_ge0 n (vminus E E')). assert (P4 := nrm_ge0 n x'). assert (R0 := r_ge0).
  assert (S1 : ((nrm n E + nrm n E') * nrm n x' <= 23 / 15 * r * (8 / 15 * r))%R) by (apply Rmult_le_compat; lra).
  assert (KG : (0 <= K * G)%R) by (apply Rmult_le_pos; lra).
  assert (S2 : (K * G * ((nrm n E + nrm n E') * nrm n x') <= 184 / 225 * (1 / 16))%R).
  { eapply Rle_trans; [apply Rmult_le_compat_l; [exact KG|exact S1]|]. lra. }
  replace (16 / 15 * (K * G * (nrm n E + nrm n E') * nrm n (vminus E E') * nrm n x'))%R with (16 / 15 * (K * G * ((nrm n E + nrm n E') * nrm n x')) * nrm n (vminus E E'))%R by ring.
  apply Rmult_le_compat_r; [exact P3|]. lra.
Qed.

(** ** The solution *)

Definition ksol (X : vec) : Prop := veq n (kres X X) b.

Lemma ksol_unique X Y : ksol X -> ksol Y -> (nrm n X <= r)%R -> (nrm n Y <= r)%R -> veq n X Y.
Proof.
  intros HX HY RX RY. assert (SX := weak_size X X RX HX). assert (SY := weak_size Y Y RY HY).
  assert (H := weak_contract X Y X Y RX SY HX HY SY). assert (P := nrm_ge0 n (vminus X Y)).
  intros k Hk. assert (E := nrm_eq0 n (vminus X Y) ltac:(lra) k Hk). unfold vminus in E. replace (X k) with (X k - Y k + Y k)%C by ring. rewrite E. ring.
Qed.

Lemma step_exists E : (nrm n E <= r)%R -> exists x, veq n (kres E x) b.
Proof.
  intro HE. destruct (weak_nonsingular E HE) as [B [_ HB]]. exists (mv n B b). intros k Hk. unfold kres. rewrite <- mv_mm.
  rewrite (mv_ext n _ mId b b HB (fun _ _ => eq_refl) k Hk), mv_Id by exact Hk. reflexivity.
Qed.
Definition kstep (E : vec) : vec := exact_solver n (kmat E) b.
Lemma kstep_ok E : (nrm n E <= r)%R -> veq n (kres E (kstep E)) b.
Proof. intro HE. apply exact_solver_correct, weak_nonsingular, HE. Qed.

Lemma ksol_exists : exists X, ksol X /\ (nrm n X <= 8 / 15 * r)%R.
Proof.
  assert (R0 := r_ge0). set (z := fun _ : nat => RtoC 0). assert (Z : nrm n z = 0%R) by (apply nrm_zero; reflexivity).
  set (x := fun m => Nat.iter m kstep z).
  assert (SZ : forall m, (nrm n (x m) <= 8 / 15 * r)%R).
  { induction m as [|m IH]; [change (x 0) with z; rewrite Z; lra|]. change (x (S m)) with (kstep (x m)). apply (weak_size (x m)); [lra|apply kstep_ok; lra]. }
  assert (OK : forall m, veq n (kres (x m) (x (S m))) b) by (intro m; apply kstep_ok; assert (H := SZ m); lra).
  set (d := nrm n (vminus (x 1) (x 0))). assert (Hd := nrm_ge0 n (vminus (x 1) (x 0))). fold d in Hd.
  assert (ST : forall m, (nrm n (vminus (x (S m)) (x m)) <= d * (1 / 2) ^ m)%R).
  { induction m as [|m IH]; [fold d; rewrite pow_O; lra|].
    assert (H := weak_contract (x (S m)) (x m) (x (S (S m))) (x (S m)) ltac:(assert (H := SZ (S m)); lra) (SZ m) (OK (S m)) (OK m) (SZ (S m))).
    simpl pow. assert (Pm : (0 < (1 / 2) ^ m)%R) by (apply pow_lt; lra). nra. }
  assert (CY : forall k m, k <= m -> (nrm n (vminus (x m) (x k)) <= 2 * d * (1 / 2) ^ k)%R).
  { intros k m Hkm. assert (Gm : (nrm n (vminus (x m) (x k)) <= 2 * d * ((1 / 2) ^ k - (1 / 2) ^ m))%R).
    { induction Hkm as [|m Hkm IH].
      - rewrite (nrm_zero n (vminus (x k) (x k))) by (intros j _; unfold vminus; ring). lra.
      - eapply Rle_trans; [apply (nrm_sub n _ (x m))|]. assert (H := ST m). simpl pow. lra. }
    assert (Pm: (0 < (1 / 2) ^ m)%R) by (apply pow_lt; lra). nra. }
  assert (LM : exists L : vec, forall j, j < n -> forall k, (Cmod (L j - x k j)%C <= 4 * d * (1 / 2) ^ k)%R).
  { assert (HE: forall j, exists l : C, j < n -> forall k, (Cmod (l - x k j)%C <= 4 * d * (1 / 2) ^ k)%R).
    { intro j. destruct (Nat.lt_ge_cases j n) as [Hj|Hj]; [|exists (RtoC 0); intro; lia].
      destruct (real_limit (fun k => Re (x k j)) (2 * d)) as [lr Hr].
      { intros k m Hkm. eapply Rle_trans; [|apply (CY k m Hkm)]. eapply Rle_trans; [|apply (nrm_comp_le n _ j Hj)]. unfold vminus.
        replace (Re (x m j) - Re (x k j))%R with (Re (x m j - x k j)%C) by (autorewrite with reim; ring). apply Cmod_Re_le. }
      destruct (real_limit (fun k => Im (x k j)) (2 * d)) as [li Hi].
      { intros k m Hkm. eapply Rle_trans; [|apply (CY k m Hkm)]. eapply Rle_trans; [|apply (nrm_comp_le n _ j Hj)]. unfold vminus.
        replace (Im (x m j) - Im (x k j))%R with (Im (x m j - x k j)%C) by (autorewrite with reim; ring). apply Cmod_Im_le. }
      exists (lr, li). intros _ k. eapply Rle_trans; [apply Cmod_le_ReIm|].
      replace (Re ((lr, li) - x k j)%C) with (lr - Re (x k j))%R by (autorewrite with reim; reflexivity).
      replace (Im ((lr, li) - x k j)%C) with (li - Im (x k j))%R by (autorewrite with reim; reflexivity).
      specialize (Hr k). specialize (Hi k). cbv beta in Hr, Hi. lra. }
    exists (fun j => proj1_sig (constructive_indefinite_description _ (HE j))). intros j Hj k. destruct (constructive_indefinite_description _ (HE j)) as [l Hl]. exact (Hl Hj k). }
  destruct LM as [L HL].
  assert (NL : forall k, (nrm n (vminus L (x k)) <= INR n * (4 * d) * (1 / 2) ^ k)%R).
  { intro k. eapply Rle_trans; [apply nrm_n1|]. rewrite Rmult_assoc. apply n1_bound. intros j Hj. unfold vminus. rewrite Rmult_assoc. rewrite <- Rmult_assoc. apply (HL j Hj k). }
  assert (SL : (nrm n L <= 8 / 15 * r)%R).
  { apply (geom_limit _ _ (INR n * (4 * d))). intro k. eapply Rle_trans; [apply (nrm_sub_ge n _ (x k))|]. apply Rplus_le_compat; [apply SZ|apply NL]. }
  exists L. split; [|exact SL].
  assert (KL := kstep_ok L ltac:(lra)).
  enough (EQ : veq n L (kstep L)).
  { intros k Hk. rewrite <- (KL k Hk). unfold kres. apply mv_ext_v. exact EQ. }
  assert (H0 : (nrm n (vminus L (kstep L)) <= 0)%R).
  { apply (geom_limit _ _ (2 * (INR n * (4 * d)))). intro k. eapply Rle_trans; [apply (nrm_sub n _ (x (S k)))|].
    assert (N1 := NL (S k)). assert (N2 := NL k). simpl pow in N1.
    assert (H := weak_contract L (x k) (kstep L) (x (S k)) ltac:(lra) (SZ k) KL (OK k) (SZ (S k))). rewrite (nrm_sub_sym n (x (S k)) (kstep L)). assert (P := nrm_ge0 n (vminus L (x k))). lra. }
  intros k Hk. assert (P := nrm_ge0 n (vminus L (kstep L))). assert (E := nrm_eq0 n (vminus L (kstep L)) ltac:(lra) k Hk). unfold vminus in E. replace (L k) with (L k - kstep L k + kstep L k)%C by ring. rewrite E. ring.
Qed.
End Weak.

Section Record.
Variables (n : nat) (A : mat) (b : vec) (g : rvec) (K G : R).
Hypothesis HK0 : (0 < K)%R.
Hypothesis HK : stable n A K.
Hypothesis HG : forall k, k < n -> (Rabs (g k) <= G)%R.
Hypothesis HG0 : (0 <= G)%R.
Let r := (2 * K * nrm n b)%R.
Hypothesis HW : (K * G * r ^ 2 <= 1 / 16)%R.

(** two consecutive recorded convergences: E, x, y are consecutive fields *)
Lemma weak_record E x y : (nrm n E <= 8 / 15 * r)%R -> veq n (kres n A g E x) b -> veq n (kres n A g x y) b -> (0 < nrm n x)%R ->
  (0 < nrm n y)%R /\ (nrm n (vminus y x) / nrm n y <= 1 / 10 * (nrm n (vminus x E) / nrm n x))%R.
Proof.
  intros HE Hx Hy Px. assert (R0 : (0 <= r)%R) by (unfold r; assert (H := nrm_ge0 n b); nra).
  assert (HW' := HW). unfold r in HW'.
  assert (Sx : (nrm n x <= 8 / 15 * r)%R) by (eapply weak_size; try eassumption; unfold r in *; lra).
  assert (H := weak_step n A b g K G HK0 HK HG HG0 HW' x E y x ltac:(unfold r in *; lra) Hy Hx).
  assert (KG : (0 <= K * G)%R) by (apply Rmult_le_pos; lra).
  assert (PE := nrm_ge0 n E). assert (Pd := nrm_ge0 n (vminus x E)). assert (Py := nrm_ge0 n (vminus y x)).
  assert (Hq := nrm_sub_le n x E). set (q := nrm n (vminus x E)) in *. set (dl := nrm n (vminus y x)) in *. set (a := nrm n x) in *. set (c := nrm n E) in *.
  assert (B1 : (dl <= 16 / 15 * (K * G * (16 / 15 * r) * q * a))%R).
  { eapply Rle_trans; [exact H|]. apply Rmult_le_compat_l; [lra|]. apply Rmult_le_compat_r; [lra|]. apply Rmult_le_compat_r; [lra|]. apply Rmult_le_compat_l; lra. }
  assert (B2 : (dl <= 256 / 3375 * a)%R).
  { eapply Rle_trans; [exact B1|]. replace (16 / 15 * (K * G * (16 / 15 * r) * q * a))%R with (256 / 225 * (K * G * r * q) * a)%R by field. apply Rmult_le_compat_r; [lra|].
    assert (K * G * r * q <= K * G * r * (16 / 15 * r))%R by (apply Rmult_le_compat_l; [apply Rmult_le_pos; lra|lra]). nra. }
  assert (B3 := nrm_sub_ge n x y). rewrite nrm_sub_sym in B3. fold dl a in B3. set (e := nrm n y) in *.
  assert (Pe : (0 < e)%R) by lra. split; [exact Pe|].
  apply (Rmult_le_reg_r (e * a)); [apply Rmult_lt_0_compat; lra|].
  replace (dl / e * (e * a))%R with (dl * a)%R by (field; lra). replace (1 / 10 * (q / a) * (e * a))%R with (1 / 10 * q * e)%R by (field; lra).
  assert (B4 : (dl * a <= 16 / 15 * (16 / 15) * (8 / 15) * (K * G * r ^ 2) * q * a)%R).
  { eapply Rle_trans; [apply Rmult_le_compat_r; [lra|exact B1]|].
    replace (16 / 15 * (K * G * (16 / 15 * r) * q * a) * a)%R with (16 / 15 * (16 / 15) * (K * G * r * q * a) * a)%R by field.
    replace (16 / 15 * (16 / 15) * (8 / 15) * (K * G * r ^ 2) * q * a)%R with (16 / 15 * (16 / 15) * (K * G * r * q * a) * (8 / 15 * r))%R by field.
    apply Rmult_le_compat_l; [|exact Sx]. assert (0 <= K * G * r * q * a)%R by (apply Rmult_le_pos; [apply Rmult_le_pos; [apply Rmult_le_pos; [exact KG|exact R0]|lra]|lra]). lra. }
  eapply Rle_trans; [exact B4|].
  assert (B5 : (16 / 15 * (16 / 15) * (8 / 15) * (K * G * r ^ 2) * q * a <= 16 / 15 * (16 / 15) * (8 / 15) * (1 / 16) * q * a)%R).
  { apply Rmult_le_compat_r; [lra|]. apply Rmult_le_compat_r; [lra|]. apply Rmult_le_compat_l; [lra|]. exact HW. }
  eapply Rle_trans; [exact B5|]. assert (E1 : (3119 / 3375 * a <= e)%R) by lra. nra.
Qed.
(** distance to the solution, from the last recorded change *)
Lemma weak_posterior E x X : (nrm n E <= r)%R -> veq n (kres n A g E x) b -> ksol n A b g X -> (nrm n X <= r)%R ->
  (nrm n (vminus x X) <= 1 / 9 * nrm n (vminus x E))%R.
Proof.
  intros HE Hx HX RX. assert (HW' := HW). unfold r in HW'.
  assert (SX : (nrm n X <= 8 / 15 * r)%R) by (eapply weak_size; try eassumption).
  assert (H := weak_contract n A b g K G HK0 HK HG HG0 HW' E X x X HE SX Hx HX SX).
  assert (T := nrm_sub n E x X). rewrite (nrm_sub_sym n E x) in T. lra.
Qed.
End Record.
