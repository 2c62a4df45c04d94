(** Newton's method for the Kerr system, in the Euclidean norm.  Nothing in this file refers to the code. *)
From Coq Require Import Reals Lra Lia List Arith.
From Coquelicot Require Import Coquelicot.
From Verif Require Import Base Linear MCore PropsNl PDiff PImpl PWeak.
Local Open Scope nat_scope.

Section Kerr.
Variables (n : nat) (A : mat) (b : vec) (g : rvec) (G : R).
Hypothesis HG : forall k, k < n -> (Rabs (g k) <= G)%R.
Hypothesis HG0 : (0 <= G)%R.

(** residual and derivative of A x + g |x|^2 x = b *)
Definition kfun (x : vec) : vec := fun k => (mv n A x k + RtoC (g k * Cnorm2 (x k)) * x k - b k)%C.
Definition kjac (x h : vec) : vec := fun k => (mv n A h k + RtoC (g k) * (RtoC (2 * Cnorm2 (x k)) * h k + x k * x k * Cconj (h k)))%C.

Lemma norm2_shift (x d : C) : RtoC (Cnorm2 (x + d)%C) = (RtoC (Cnorm2 x) + x * Cconj d + Cconj x * d + RtoC (Cnorm2 d))%C.
Proof. rewrite <- !Cmult_conj_r, Cconj_plus. ring. Qed.
Lemma taylor_rest x y k : (kfun y k - kfun x k - kjac x (vminus y x) k =
  RtoC (g k) * (RtoC (2 * Cnorm2 (y k - x k)%C) * x k + Cconj (x k) * (y k - x k) * (y k - x k) + RtoC (Cnorm2 (y k - x k)%C) * (y k - x k)))%C.
Proof.
  unfold kfun, kjac. rewrite mv_vminus. unfold vminus. set (d := (y k - x k)%C). replace (y k) with (x k + d)%C by (unfold d; ring).
  rewrite !RtoC_mult, norm2_shift. rewrite <- !Cmult_conj_r. replace (RtoC 2) with (RtoC 1 + RtoC 1)%C by (rewrite <- RtoC_plus; f_equal; ring). ring.
Qed.
Lemma taylor_bound x y : (nrm n (fun k => kfun y k - kfun x k - kjac x (vminus y x) k)%C <= G * (3 * nrm n x + nrm n (vminus y x)) * nrm n (vminus y x) ^ 2)%R.
Proof.
  assert (P1 := nrm_ge0 n x). assert (P2 := nrm_ge0 n (vminus y x)).
  replace (G * (3 * nrm n x + nrm n (vminus y x)) * nrm n (vminus y x) ^ 2)%R with ((G * (3 * nrm n x + nrm n (vminus y x)) * nrm n (vminus y x)) * nrm n (vminus y x))%R by ring.
  apply nrm_le; [apply Rmult_le_pos; [apply Rmult_le_pos; lra|exact P2]|]. intros k Hk. rewrite taylor_rest.
  change (y k - x k)%C with (vminus y x k). set (d := vminus y x k) in *. assert (D := nrm_comp_le n (vminus y x) k Hk). fold d in D. assert (X := nrm_comp_le n x k Hk).
  assert (D0 := Cmod_ge_0 d). assert (X0 := Cmod_ge_0 (x k)). rewrite Cmod_mult, Cmod_R.
  assert (B : (Cmod (RtoC (2 * Cnorm2 d) * x k + Cconj (x k) * d * d + RtoC (Cnorm2 d) * d)%C <= (3 * Cmod (x k) + Cmod d) * Cmod d * Cmod d)%R).
  { eapply Rle_trans; [apply Cmod_triangle|]. eapply Rle_trans; [apply Rplus_le_compat_r, Cmod_triangle|]. rewrite !Cmod_mult, !Cmod_R, Cmod_conj. rewrite Rabs_mult, (Rabs_pos_eq 2), (Rabs_pos_eq (Cnorm2 d)), <- Cmod_sq by (lra || apply Cnorm2_ge0). apply Req_le. ring. }
  rewrite !(Rmult_assoc G). apply Rmult_le_compat; [apply Rabs_pos|apply Cmod_ge_0|apply HG, Hk|]. eapply Rle_trans; [exact B|]. rewrite !Rmult_assoc. apply Rmult_le_compat; [lra|apply Rmult_le_pos; exact D0|lra|]. apply Rmult_le_compat_r; assumption.
Qed.

(** the derivative does not vary much *)
Lemma kjac_near x y h : (nrm n (vminus (kjac y h) (kjac x h)) <= 3 * G * (nrm n x + nrm n y) * nrm n (vminus y x) * nrm n h)%R.
Proof.
  assert (P1 := nrm_ge0 n x). assert (P2 := nrm_ge0 n y). assert (P3 := nrm_ge0 n (vminus y x)).
  apply nrm_le; [apply Rmult_le_pos; [apply Rmult_le_pos; lra|exact P3]|]. intros k Hk. unfold vminus at 1, kjac.
  assert (D := nrm_comp_le n (vminus y x) k Hk). assert (X := nrm_comp_le n x k Hk). assert (Y := nrm_comp_le n y k Hk). change (vminus y x k) with (y k - x k)%C in D.
  assert (D0 := Cmod_ge_0 (y k - x k)%C). assert (X0 := Cmod_ge_0 (x k)). assert (Y0 := Cmod_ge_0 (y k)). assert (H0 := Cmod_ge_0 (h k)).
  match goal with |- (Cmod ?z <= _)%R => replace z with (RtoC (g k) * (RtoC (2 * (Cnorm2 (y k) - Cnorm2 (x k))) * h k + (y k + x k) * (y k - x k) * Cconj (h k)))%C by (rewrite !RtoC_mult, !RtoC_minus; ring) end.
  rewrite Cmod_mult, Cmod_R. rewrite (Rmult_comm 3 G), !(Rmult_assoc G). apply Rmult_le_compat; [apply Rabs_pos|apply Cmod_ge_0|apply HG, Hk|].
  eapply Rle_trans; [apply Cmod_triangle|]. rewrite !Cmod_mult, Cmod_R, Cmod_conj, Rabs_mult, (Rabs_pos_eq 2) by lra.
  assert (Q1 := norm2_diff (y k) (x k)). assert (Q2 := Cmod_triangle (y k) (x k)).
  assert (S : ((Cmod (y k) + Cmod (x k)) * Cmod (y k - x k)%C <= (nrm n x + nrm n y) * nrm n (vminus y x))%R) by (apply Rmult_le_compat; lra).
  assert (S2 : (Cmod (y k + x k)%C * Cmod (y k - x k)%C <= (Cmod (y k) + Cmod (x k)) * Cmod (y k - x k)%C)%R) by (apply Rmult_le_compat_r; lra).
  set (q := ((nrm n x + nrm n y) * nrm n (vminus y x))%R) in *.
  assert (T1 : (2 * Rabs (Cnorm2 (y k) - Cnorm2 (x k)) * Cmod (h k) <= 2 * q * Cmod (h k))%R) by (apply Rmult_le_compat_r; lra).
  assert (T2 : (Cmod (y k + x k)%C * Cmod (y k - x k)%C * Cmod (h k) <= q * Cmod (h k))%R) by (apply Rmult_le_compat_r; lra).
  eapply Rle_trans; [apply Rplus_le_compat; [exact T1|exact T2]|]. apply Req_le. unfold q. ring.
Qed.
(** at the zero field the derivative is the matrix *)
Lemma kjac_zero h : veq n (kjac (fun _ => RtoC 0) h) (mv n A h).
Proof. intros k _. unfold kjac. replace (Cnorm2 (RtoC 0)) with 0%R by (rewrite <- Cmod_sq, Cmod_0; ring). rewrite Rmult_0_r. ring. Qed.

Lemma kjac_stable_near x y K e : (0 <= K)%R -> (forall h, (nrm n h <= K * nrm n (kjac x h))%R) ->
  (K * (3 * G * (nrm n x + nrm n y) * nrm n (vminus y x)) <= e)%R -> (e < 1)%R -> forall h, (nrm n h <= K / (1 - e) * nrm n (kjac y h))%R.
Proof.
  intros HK HS He E1 h. assert (P := nrm_ge0 n h). assert (H := HS h). assert (N := kjac_near x y h).
  assert (T := nrm_sub_ge n (kjac x h) (kjac y h)). rewrite nrm_sub_sym in T.
  assert (T2 : (nrm n (kjac x h) <= nrm n (kjac y h) + 3 * G * (nrm n x + nrm n y) * nrm n (vminus y x) * nrm n h)%R) by lra.
  apply (Rmult_le_compat_l K) in T2; [|exact HK].
  assert (T3 : (K * (3 * G * (nrm n x + nrm n y) * nrm n (vminus y x) * nrm n h) <= e * nrm n h)%R).
  { replace (K * (3 * G * (nrm n x + nrm n y) * nrm n (vminus y x) * nrm n h))%R with (K * (3 * G * (nrm n x + nrm n y) * nrm n (vminus y x)) * nrm n h)%R by ring. apply Rmult_le_compat_r; assumption. }
  assert (T4 : ((1 - e) * nrm n h <= K * nrm n (kjac y h))%R) by lra.
  apply (Rmult_le_reg_l (1 - e)); [lra|]. replace ((1 - e) * (K / (1 - e) * nrm n (kjac y h)))%R with (K * nrm n (kjac y h))%R by (field; lra). exact T4.
Qed.

(** one step from near a solution *)
Lemma newton_step K X x x' : (0 <= K)%R -> (forall k, k < n -> kfun X k = RtoC 0) ->
  (forall h, (nrm n h <= K * nrm n (kjac x h))%R) -> veq n (kjac x (vminus x x')) (kfun x) ->
  (nrm n (vminus x' X) <= K * G * (3 * nrm n X + 4 * nrm n (vminus x X)) * nrm n (vminus x X) ^ 2)%R.
Proof.
  intros HK HX HS Hx. eapply Rle_trans; [apply HS|]. rewrite !(Rmult_assoc K). apply Rmult_le_compat_l; [exact HK|].
  assert (E : veq n (kjac x (vminus x' X)) (fun k => kfun X k - kfun x k - kjac x (vminus X x) k)%C).
  { intros k Hk. rewrite (HX k Hk), <- (Hx k Hk). unfold kjac. rewrite !mv_vminus. unfold vminus. rewrite !Cconj_minus. ring. }
  rewrite (nrm_ext n _ _ E). eapply Rle_trans; [apply taylor_bound|]. rewrite (nrm_sub_sym n X x). rewrite !(Rmult_assoc G).
  apply Rmult_le_compat_l; [exact HG0|]. apply Rmult_le_compat_r; [apply pow2_ge_0|]. assert (T := nrm_sub_ge n x X). lra.
Qed.
End Kerr.

(** injective widely linear maps are bounded below in the Euclidean norm *)
Lemma n1_nrm n v : (n1 n v <= INR n * nrm n v)%R.
Proof. apply n1_bound. intros k Hk. apply nrm_comp_le, Hk. Qed.
Lemma widely_stable n L11 L12 : widely_injective n L11 L12 -> exists K, (0 < K)%R /\ forall h, (nrm n h <= K * nrm n (wl n L11 L12 h))%R.
Proof.
  intro HI. destruct (widely_bound n L11 L12 HI) as (K & HK & H). assert (P := pos_INR n). exists (K * INR n + 1)%R. split; [nra|]. intro h.
  assert (Q := nrm_ge0 n (wl n L11 L12 h)). eapply Rle_trans; [apply nrm_n1|]. eapply Rle_trans; [apply H|].
  assert (T := n1_nrm n (wl n L11 L12 h)). apply (Rmult_le_compat_l K) in T; [|lra]. lra.
Qed.

(** The linear system with the coefficients of E. *)
Section Frozen.
Variables (n : nat) (A : mat) (b : vec) (g : rvec) (G : R).
Hypothesis HG : forall k, k < n -> (Rabs (g k) <= G)%R.
Hypothesis HG0 : (0 <= G)%R.

Lemma kres_diff E E' h : (nrm n (vminus (kres n A g E h) (kres n A g E' h)) <= G * (nrm n E + nrm n E') * nrm n (vminus E E') * nrm n h)%R.
Proof.
  assert (P1 := nrm_ge0 n E). assert (P2 := nrm_ge0 n E'). assert (P3 := nrm_ge0 n (vminus E E')).
  apply nrm_le; [apply Rmult_le_pos; [apply Rmult_le_pos; lra|exact P3]|]. intros k Hk. unfold vminus at 1. rewrite !kres_eq by exact Hk.
  match goal with |- (Cmod ?z <= _)%R => replace z with (RtoC (g k * (Cnorm2 (E k) - Cnorm2 (E' k))) * h k)%C by (rewrite !RtoC_mult, RtoC_minus; ring) end.
  rewrite Cmod_mult, Cmod_R, Rabs_mult. apply Rmult_le_compat_r; [apply Cmod_ge_0|].
  rewrite Rmult_assoc. apply Rmult_le_compat; [apply Rabs_pos|apply Rabs_pos|apply HG, Hk|].
  eapply Rle_trans; [apply norm2_diff|]. apply Rmult_le_compat.
  - assert (Q1 := Cmod_ge_0 (E k)). assert (Q2 := Cmod_ge_0 (E' k)). lra.
  - apply Cmod_ge_0.
  - apply Rplus_le_compat; apply nrm_comp_le, Hk.
  - apply (nrm_comp_le n (vminus E E') k Hk).
Qed.
Lemma kres_stable_near X E K : (0 <= K)%R -> (forall h, (nrm n h <= K * nrm n (kres n A g X h))%R) ->
  (K * (G * (nrm n X + nrm n E) * nrm n (vminus X E)) <= 1 / 2)%R -> forall h, (nrm n h <= 2 * K * nrm n (kres n A g E h))%R.
Proof.
  intros HK HS He h. assert (P := nrm_ge0 n h). assert (H := HS h). assert (N := kres_diff X E h).
  assert (T := nrm_sub_ge n (kres n A g X h) (kres n A g E h)).
  assert (T2 : (nrm n (kres n A g X h) <= nrm n (kres n A g E h) + G * (nrm n X + nrm n E) * nrm n (vminus X E) * nrm n h)%R) by lra.
  apply (Rmult_le_compat_l K) in T2; [|exact HK].
  assert (T3 : (K * (G * (nrm n X + nrm n E) * nrm n (vminus X E) * nrm n h) <= 1 / 2 * nrm n h)%R).
  { replace (K * (G * (nrm n X + nrm n E) * nrm n (vminus X E) * nrm n h))%R with (K * (G * (nrm n X + nrm n E) * nrm n (vminus X E)) * nrm n h)%R by ring. apply Rmult_le_compat_r; assumption. }
  lra.
Qed.
Lemma kres_last X E Y K : (0 <= K)%R -> (forall h, (nrm n h <= K * nrm n (kres n A g E h))%R) ->
  ksol n A b g X -> veq n (kres n A g E Y) b ->
  (nrm n (vminus Y X) <= K * (G * (nrm n X + nrm n E) * nrm n X) * nrm n (vminus E X))%R.
Proof.
  intros HK HS HX HY. eapply Rle_trans; [apply HS|]. rewrite (Rmult_assoc K). apply Rmult_le_compat_l; [exact HK|].
  assert (E1 : veq n (kres n A g E (vminus Y X)) (vminus (kres n A g X X) (kres n A g E X))).
  { intros k Hk. unfold kres. rewrite mv_vminus. unfold vminus. fold (kres n A g E Y). change (mv n (kmat A g E) Y k) with (kres n A g E Y k). rewrite (HY k Hk), <- (HX k Hk). reflexivity. }
  rewrite (nrm_ext n _ _ E1). eapply Rle_trans; [apply kres_diff|]. rewrite (nrm_sub_sym n E X). apply Req_le. ring.
Qed.
End Frozen.
