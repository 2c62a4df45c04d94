(** Contraction mapping and implicit function theorem for the Kerr system: existence of
    the branch of nonlinear solutions along which the gradient of C37 is the derivative. *)
From Coq Require Import Reals Lra Lia List Arith ClassicalEpsilon.
From Coquelicot Require Import Coquelicot.
From Verif Require Import Base Linear MCore PropsNl PDiff.
Local Open Scope nat_scope.

Lemma geom_limit (x : R) (b c : R) : (forall k : nat, (x <= b + c * (1 / 2) ^ k)%R) -> (x <= b)%R.
Proof.
  intro H. destruct (Rle_or_lt x b) as [L|L]; [exact L|exfalso].
  destruct (Rle_or_lt c 0) as [Hc|Hc]; [specialize (H 0); simpl in H; lra|].
  assert (P: (0 < (x - b) / c)%R) by (apply Rdiv_lt_0_compat; lra).
  destruct (pow_lt_1_zero (1 / 2) ltac:(rewrite Rabs_right; lra) _ P) as [k Hk]. specialize (Hk k (le_n k)). specialize (H k).
  rewrite Rabs_right in Hk by (apply Rle_ge, pow_le; lra).
  apply (Rmult_lt_compat_l c) in Hk; [|exact Hc]. replace (c * ((x - b) / c))%R with (x - b)%R in Hk by (field; lra). lra.
Qed.
Lemma real_limit (a : nat -> R) c : (forall k m, k <= m -> (Rabs (a m - a k) <= c * (1 / 2) ^ k)%R) ->
  exists l, forall k, (Rabs (l - a k) <= c * (1 / 2) ^ k)%R.
Proof.
  intro H. assert (Hc: (0 <= c)%R). { specialize (H 0 0 (le_n 0)). simpl in H. assert (P := Rabs_pos (a 0 - a 0)). lra. }
  assert (HC: Cauchy_crit a).
  { intros eps He. assert (P: (0 < eps / (2 * c + 1))%R) by (apply Rdiv_lt_0_compat; lra).
    destruct (pow_lt_1_zero (1 / 2) ltac:(rewrite Rabs_right; lra) _ P) as [N HN]. exists N. intros p q Hp Hq. unfold R_dist.
    specialize (HN N (le_n N)). rewrite Rabs_right in HN by (apply Rle_ge, pow_le; lra).
    assert (A1 := H N p Hp). assert (A2 := H N q Hq).
    replace (a p - a q)%R with ((a p - a N) - (a q - a N))%R by ring. eapply Rle_lt_trans; [apply Rabs_triang|]. rewrite Rabs_Ropp.
    assert (X: (0 < (1 / 2) ^ N)%R) by (apply pow_lt; lra).
    apply (Rmult_lt_compat_l (2 * c + 1)) in HN; [|lra]. replace ((2 * c + 1) * (eps / (2 * c + 1)))%R with eps in HN by (field; lra). lra. }
  destruct (Coq.Reals.Rcomplete.R_complete a HC) as [l Hl]. exists l. intro k.
  apply Rnot_lt_le. intro L. set (g := (Rabs (l - a k) - c * (1 / 2) ^ k)%R). assert (Hg: (0 < g)%R) by (unfold g; lra).
  destruct (Hl g Hg) as [N HN]. specialize (HN (max N k) (Nat.le_max_l N k)). unfold R_dist in HN.
  assert (A := H k (max N k) (Nat.le_max_r N k)).
  assert (B: (Rabs (l - a k) <= Rabs (a (max N k) - l) + Rabs (a (max N k) - a k))%R).
  { rewrite <- (Rabs_Ropp (a (max N k) - l)). eapply Rle_trans; [|apply Rabs_triang]. right. f_equal. ring. }
  unfold g in HN. lra.
Qed.
Lemma n1_sub_triangle n x y z : (n1 n (vminus x z) <= n1 n (vminus x y) + n1 n (vminus y z))%R.
Proof.
  rewrite (n1_ext n (vminus x z) (vplus (vminus x y) (vminus y z))) by (intros k _; unfold vminus, vplus; ring). apply n1_plus.
Qed.
Lemma n1_sub_sym n x y : n1 n (vminus x y) = n1 n (vminus y x).
Proof. rewrite <- n1_opp. apply n1_ext. intros k _. unfold vminus. ring. Qed.
Lemma n1_zero n x y : (n1 n (vminus x y) <= 0)%R -> veq n x y.
Proof.
  intros H k Hk. assert (A := n1_comp n (vminus x y) k Hk). assert (B := Cmod_ge_0 (vminus x y k)).
  assert (E: vminus x y k = RtoC 0) by (apply Cmod_eq_0; lra). unfold vminus in E.
  replace (x k) with (x k - y k + y k)%C by ring. rewrite E. ring.
Qed.

Theorem contraction n (T : vec -> vec) (x0 : vec) (r : R) : (0 < r)%R ->
  (forall x y, (n1 n (vminus x x0) <= r)%R -> (n1 n (vminus y x0) <= r)%R -> (n1 n (vminus (T x) (T y)) <= 1 / 2 * n1 n (vminus x y))%R) ->
  (n1 n (vminus (T x0) x0) <= r / 2)%R ->
  exists X, (n1 n (vminus X x0) <= 2 * n1 n (vminus (T x0) x0))%R /\ veq n (T X) X.
Proof.
  intros Hr HT H0. set (d := n1 n (vminus (T x0) x0)) in *. assert (Hd := n1_ge0 n (vminus (T x0) x0)). fold d in Hd.
  set (x := fun k => Nat.iter k T x0).
  assert (HS: forall k, (n1 n (vminus (x k) x0) <= 2 * d * (1 - (1 / 2) ^ k))%R /\ (n1 n (vminus (x (S k)) (x k)) <= d * (1 / 2) ^ k)%R).
  { induction k as [|k [I1 I2]].
    - split; [simpl; rewrite (n1_ext n _ (fun _ => RtoC 0)) by (intros j _; unfold vminus, x; simpl; ring)|simpl; unfold d; lra].
      unfold n1. rewrite rsum_0 by (intros; apply Cmod_0). lra.
    - assert (Pk: (0 < (1 / 2) ^ k)%R) by (apply pow_lt; lra).
      assert (J1: (n1 n (vminus (x (S k)) x0) <= 2 * d * (1 - (1 / 2) ^ S k))%R).
      { eapply Rle_trans; [apply (n1_sub_triangle n _ (x k))|]. simpl pow. lra. }
      split; [exact J1|]. change (x (S (S k))) with (T (x (S k))). change (x (S k)) with (T (x k)) at 2.
      assert (B1: (2 * d * (1 - (1 / 2) ^ k) <= r)%R) by nra.
      assert (B2: (2 * d * (1 - (1 / 2) ^ S k) <= r)%R). { assert (P2: (0 < (1 / 2) ^ S k)%R) by (apply pow_lt; lra). nra. }
      eapply Rle_trans; [apply HT; lra|]. simpl pow. lra. }
  assert (HB: forall k, (n1 n (vminus (x k) x0) <= r)%R).
  { intro k. destruct (HS k) as [I1 _]. assert (Pk: (0 < (1 / 2) ^ k)%R) by (apply pow_lt; lra). nra. }
  assert (HCy: forall k m, k <= m -> (n1 n (vminus (x m) (x k)) <= 2 * d * (1 / 2) ^ k)%R).
  { intros k m Hkm. assert (Pk: (0 < (1 / 2) ^ k)%R) by (apply pow_lt; lra).
    assert (G: (n1 n (vminus (x m) (x k)) <= 2 * d * ((1 / 2) ^ k - (1 / 2) ^ m))%R).
    { induction Hkm as [|m Hkm IH].
      - rewrite (n1_ext n _ (fun _ => RtoC 0)) by (intros j _; unfold vminus; ring). unfold n1. rewrite rsum_0 by (intros; apply Cmod_0). lra.
      - eapply Rle_trans; [apply (n1_sub_triangle n _ (x m))|]. destruct (HS m) as [_ I2]. simpl pow. lra. }
    assert (Pm: (0 < (1 / 2) ^ m)%R) by (apply pow_lt; lra). nra. }
  assert (HLim: exists L : vec, forall j, j < n -> forall k, (Cmod (L j - x k j)%C <= 4 * d * (1 / 2) ^ k)%R).
  { assert (HE: forall j, exists l : C, j < n -> forall k, (Cmod (l - x k j)%C <= 4 * d * (1 / 2) ^ k)%R).
    { intro j. destruct (Nat.lt_ge_cases j n) as [Hj|Hj]; [|exists (RtoC 0); intro; lia]. destruct (real_limit (fun k => Re (x k j)) (2 * d)) as [lr Hr'].
      { intros k m Hkm. eapply Rle_trans; [|apply (HCy k m Hkm)]. eapply Rle_trans; [|apply (n1_comp n _ j Hj)]. unfold vminus.
        replace (Re (x m j) - Re (x k j))%R with (Re (x m j - x k j)%C) by (autorewrite with reim; ring). apply Cmod_Re_le. }
      destruct (real_limit (fun k => Im (x k j)) (2 * d)) as [li Hi].
      { intros k m Hkm. eapply Rle_trans; [|apply (HCy k m Hkm)]. eapply Rle_trans; [|apply (n1_comp n _ j Hj)]. unfold vminus.
        replace (Im (x m j) - Im (x k j))%R with (Im (x m j - x k j)%C) by (autorewrite with reim; ring). apply Cmod_Im_le. }
      exists (lr, li). intros _ k. eapply Rle_trans; [apply Cmod_le_ReIm|].
      replace (Re ((lr, li) - x k j)%C) with (lr - Re (x k j))%R by (autorewrite with reim; reflexivity).
      replace (Im ((lr, li) - x k j)%C) with (li - Im (x k j))%R by (autorewrite with reim; reflexivity).
      specialize (Hr' k). specialize (Hi k). cbv beta in Hr', Hi. lra. }
    exists (fun j => proj1_sig (constructive_indefinite_description _ (HE j))). intros j Hj.
    exact (proj2_sig (constructive_indefinite_description _ (HE j)) Hj). }
  destruct HLim as [L HL].
  assert (HLn: forall k, (n1 n (vminus L (x k)) <= INR n * (4 * d) * (1 / 2) ^ k)%R).
  { intro k. eapply Rle_trans; [apply (n1_bound n _ (4 * d * (1 / 2) ^ k)); intros j Hj; apply (HL j Hj k)|]. right. ring. }
  assert (HL0: (n1 n (vminus L x0) <= 2 * d)%R).
  { apply (geom_limit _ _ (INR n * (4 * d))). intro k. eapply Rle_trans; [apply (n1_sub_triangle n _ (x k))|].
    destruct (HS k) as [I1 _]. specialize (HLn k). assert (Pk: (0 < (1 / 2) ^ k)%R) by (apply pow_lt; lra). nra. }
  exists L. split; [exact HL0|]. apply n1_zero. apply (geom_limit _ _ (INR n * (4 * d))). intro k. rewrite Rplus_0_l.
  eapply Rle_trans; [apply (n1_sub_triangle n _ (T (x k)))|]. assert (A1: (n1 n (vminus (T L) (T (x k))) <= 1 / 2 * n1 n (vminus L (x k)))%R) by (apply HT; [lra|apply HB]).
  assert (A2 := HLn (S k)). change (x (S k)) with (T (x k)) in A2. rewrite (n1_sub_sym n L (T (x k))) in A2. specialize (HLn k). simpl pow in A2. lra.
Qed.

(** |z|^2 z minus its linearisation at z is a contraction near z *)
Lemma kf_lin_lip z u v r : (Cmod u <= r)%R -> (Cmod v <= r)%R -> (r <= 1)%R ->
  (Cmod (kf (z + u) - kf (z + v) - (RtoC 2 * (z * Cconj z) * (u - v) + z * z * Cconj (u - v)))%C <= (6 * Cmod z + 3) * r * Cmod (u - v)%C)%R.
Proof.
  intros Hu Hv Hr. set (w := (u - v)%C).
  assert (E: (kf (z + u) - kf (z + v) - (RtoC 2 * (z * Cconj z) * w + z * z * Cconj w)
            = RtoC 2 * z * (u * Cconj w + w * Cconj v) + (Cconj z * w * (u + v) + (u * u * Cconj w + w * (u + v) * Cconj v)))%C).
  { unfold w. rewrite !kf_expand, !Cconj_minus. apply C_ext; autorewrite with reim; ring. }
  rewrite E. assert (Pu := Cmod_ge_0 u). assert (Pv := Cmod_ge_0 v). assert (Pz := Cmod_ge_0 z). assert (Pw := Cmod_ge_0 w).
  assert (T1: (Cmod (u * Cconj w + w * Cconj v)%C <= 2 * r * Cmod w)%R).
  { eapply Rle_trans; [apply Cmod_triangle|]. rewrite !Cmod_mult, !Cmod_conj. nra. }
  assert (T2: (Cmod (u + v)%C <= 2 * r)%R) by (eapply Rle_trans; [apply Cmod_triangle|lra]).
  assert (P2 := Cmod_ge_0 (u + v)%C).
  assert (Q1: (Cmod (RtoC 2 * z * (u * Cconj w + w * Cconj v))%C <= 4 * Cmod z * r * Cmod w)%R).
  { rewrite !Cmod_mult, Cmod_R, (Rabs_right 2) by lra. apply (Rmult_le_compat_l (2 * Cmod z)) in T1; [|lra]. lra. }
  assert (Q2: (Cmod (Cconj z * w * (u + v))%C <= 2 * Cmod z * r * Cmod w)%R).
  { rewrite !Cmod_mult, Cmod_conj. apply (Rmult_le_compat_l (Cmod z * Cmod w)) in T2; [|apply Rmult_le_pos; lra]. lra. }
  assert (Q3: (Cmod (u * u * Cconj w)%C <= r * Cmod w)%R).
  { rewrite !Cmod_mult, Cmod_conj. apply Rmult_le_compat_r; [exact Pw|]. nra. }
  assert (Q4: (Cmod (w * (u + v) * Cconj v)%C <= 2 * r * Cmod w)%R).
  { rewrite !Cmod_mult, Cmod_conj. assert (X: (Cmod (u + v)%C * Cmod v <= 2 * r)%R) by nra.
    apply (Rmult_le_compat_l (Cmod w)) in X; [|exact Pw]. lra. }
  eapply Rle_trans; [apply Cmod_triangle|]. assert (R1 := Cmod_triangle (Cconj z * w * (u + v))%C (u * u * Cconj w + w * (u + v) * Cconj v)%C).
  assert (R2 := Cmod_triangle (u * u * Cconj w)%C (w * (u + v) * Cconj v)%C). lra.
Qed.
Lemma kf_lip2 z u v : (Cmod u <= 1)%R -> (Cmod v <= 1)%R -> (Cmod (kf (z + u) - kf (z + v))%C <= 3 * (Cmod z + 1) ^ 2 * Cmod (u - v)%C)%R.
Proof.
  intros Hu Hv. set (a := (z + u)%C). set (b := (z + v)%C).
  assert (E: (kf a - kf b = a * a * Cconj (u - v) + (u - v) * (a + b) * Cconj b)%C).
  { unfold a, b, kf. rewrite !Cconj_plus, !Cconj_minus. apply C_ext; autorewrite with reim; ring. }
  rewrite E. assert (Pw := Cmod_ge_0 (u - v)%C). assert (Pz := Cmod_ge_0 z). assert (Pa := Cmod_ge_0 a). assert (Pb := Cmod_ge_0 b).
  assert (Ha: (Cmod a <= Cmod z + 1)%R) by (eapply Rle_trans; [apply Cmod_triangle|lra]).
  assert (Hb: (Cmod b <= Cmod z + 1)%R) by (eapply Rle_trans; [apply Cmod_triangle|lra]).
  assert (Hab: (Cmod (a + b)%C <= 2 * (Cmod z + 1))%R) by (eapply Rle_trans; [apply Cmod_triangle|lra]). assert (Pab := Cmod_ge_0 (a + b)%C).
  eapply Rle_trans; [apply Cmod_triangle|]. rewrite !Cmod_mult, !Cmod_conj.
  assert (X1: (Cmod a * Cmod a <= (Cmod z + 1) ^ 2)%R) by nra.
  assert (X2: (Cmod (a + b)%C * Cmod b <= 2 * (Cmod z + 1) ^ 2)%R) by nra.
  apply (Rmult_le_compat_r (Cmod (u - v)%C)) in X1; [|exact Pw]. apply (Rmult_le_compat_l (Cmod (u - v)%C)) in X2; [|exact Pw]. lra.
Qed.
Lemma vsmall0_0 n v : vsmall0 n v -> forall k, k < n -> v 0%R k = RtoC 0.
Proof.
  intros H k Hk. apply Cmod_eq_0. assert (P := Cmod_ge_0 (v 0%R k)).
  destruct (Rle_or_lt (Cmod (v 0%R k)) 0) as [L|L]; [lra|]. destruct (H (Cmod (v 0%R k) / 2)%R ltac:(lra)) as (d & Hd & Hb).
  specialize (Hb 0%R). rewrite Rabs_R0 in Hb. specialize (Hb Hd). assert (Q := n1_comp n (v 0%R) k Hk). lra.
Qed.
Lemma vsmall2 n u v e1 e2 : vsmall0 n u -> vsmall0 n v -> (0 < e1)%R -> (0 < e2)%R ->
  exists d, (0 < d)%R /\ forall t, (Rabs t < d)%R -> (n1 n (u t) <= e1 /\ n1 n (v t) <= e2)%R.
Proof.
  intros Hu Hv H1 H2. destruct (Hu e1 H1) as (d1 & P1 & Q1). destruct (Hv e2 H2) as (d2 & P2 & Q2).
  exists (Rmin d1 d2). split; [apply Rmin_pos; assumption|]. intros t Ht. assert (A := Rmin_l d1 d2). assert (B := Rmin_r d1 d2).
  split; [apply Q1|apply Q2]; lra.
Qed.
Lemma wl_vminus n A B u v i : wl n A B (vminus u v) i = (wl n A B u i - wl n A B v i)%C.
Proof.
  assert (H := wl_vminus_scal n A B u 1 v i). rewrite Cmult_1_l in H. rewrite <- H. unfold wl. f_equal; apply csum_ext; intros k _; unfold vminus, vconj;
  rewrite Cmult_1_l; reflexivity.
Qed.

Theorem kerr_branch n A b (c0 : vec) (d c : R -> vec) (x0 : vec) :
  let L11 := mplus A (mdiag (fun i => RtoC 2 * c0 i * (x0 i * Cconj (x0 i)))%C) in
  let L12 := mdiag (fun i => c0 i * (x0 i * x0 i))%C in
  widely_injective n L11 L12 -> vsmall0 n d -> vsmall0 n c ->
  (forall i, i < n -> (mv n A x0 i + c0 i * kf (x0 i) = b i)%C) ->
  exists (X : R -> vec) delta0, (0 < delta0)%R /\ veq n (X 0%R) x0 /\ vsmall0 n (fun t => vminus (X t) x0) /\
  forall t, (Rabs t < delta0)%R -> forall i, i < n -> (mv n A (X t) i + d t i * X t i + (c0 i + c t i) * kf (X t i) = b i)%C.
Proof.
  intros L11 L12 HI Hd Hc H0.
  destruct (widely_bound n L11 L12 HI) as [K [HK HB]].
  set (Z := n1 n x0). assert (PZ := n1_ge0 n x0). fold Z in PZ. assert (Pc := n1_ge0 n c0).
  set (C1 := (n1 n c0 * (6 * Z + 3))%R). assert (PC1: (0 <= C1)%R) by (apply Rmult_le_pos; lra).
  set (C2 := (3 * (Z + 1) ^ 2)%R). assert (PC2: (0 < C2)%R) by (unfold C2; nra).
  set (kx := fun i => kf (x0 i)). assert (Pk := n1_ge0 n kx).
  set (r := Rmin 1 (1 / (4 * K * (C1 + 1)))%R).
  assert (PK: (0 < 4 * K * (C1 + 1))%R) by nra.
  assert (Hr: (0 < r)%R) by (apply Rmin_pos; [lra|apply Rdiv_lt_0_compat; lra]).
  assert (Hr1: (r <= 1)%R) by apply Rmin_l.
  assert (Hr2: (C1 * r <= 1 / (4 * K))%R).
  { assert (A1: (r <= 1 / (4 * K * (C1 + 1)))%R) by apply Rmin_r. apply (Rmult_le_compat_l (C1 + 1)) in A1; [|lra].
    replace ((C1 + 1) * (1 / (4 * K * (C1 + 1))))%R with (1 / (4 * K))%R in A1 by (field; split; nra). nra. }
  set (e1 := Rmin (1 / (8 * K)) (r / (4 * K * (Z + 1)))%R). set (e2 := Rmin (1 / (8 * K * C2)) (r / (4 * K * (n1 n kx + 1)))%R).
  assert (He1: (0 < e1)%R) by (apply Rmin_pos; apply Rdiv_lt_0_compat; nra).
  assert (He2: (0 < e2)%R). { apply Rmin_pos; apply Rdiv_lt_0_compat; try lra; [|nra]. apply Rmult_lt_0_compat; [lra|exact PC2]. }
  destruct (vsmall2 n d c e1 e2 Hd Hc He1 He2) as (delta0 & Hdel & Hdc).
  (* the residual at x0 *)
  set (F0 := fun t i => (d t i * x0 i + c t i * kf (x0 i))%C).
  assert (HF0: forall t, (n1 n (F0 t) <= n1 n (d t) * Z + n1 n (c t) * n1 n kx)%R).
  { intro t. eapply Rle_trans; [apply (n1_plus n (fun i => d t i * x0 i)%C (fun i => c t i * kx i)%C)|].
    apply Rplus_le_compat; [apply (n1_vmul n (d t) x0)|apply (n1_vmul n (c t) kx)]. }
  (* the map *)
  set (G := fun t (x : vec) i => (b i + (RtoC 2 * c0 i * (x0 i * Cconj (x0 i)) * x i + c0 i * (x0 i * x0 i) * Cconj (x i) - c0 i * kf (x i)) - d t i * x i - c t i * kf (x i))%C).
  assert (HT: forall t x, exists y, veq n (wl n L11 L12 y) (G t x)) by (intros; apply widely_surj; exact HI).
  set (T := fun t x => proj1_sig (constructive_indefinite_description _ (HT t x))).
  assert (HTs: forall t x, veq n (wl n L11 L12 (T t x)) (G t x)) by (intros t x; exact (proj2_sig (constructive_indefinite_description _ (HT t x)))).
  assert (Hwl: forall x i, i < n -> wl n L11 L12 x i = (mv n A x i + (RtoC 2 * c0 i * (x0 i * Cconj (x0 i)) * x i + c0 i * (x0 i * x0 i) * Cconj (x i)))%C).
  { intros x i Hi. unfold wl, L11, L12. rewrite mv_mplus, !mv_diag by assumption. unfold vconj. ring. }
  assert (HTL: forall t x y, (n1 n (vminus (T t x) (T t y)) <= K * n1 n (vminus (G t x) (G t y)))%R).
  { intros t x y. eapply Rle_trans; [apply HB|]. right. f_equal. apply n1_ext. intros i Hi. rewrite wl_vminus. unfold vminus. rewrite !HTs by exact Hi. reflexivity. }
  assert (HT0: forall t, (n1 n (vminus (T t x0) x0) <= K * n1 n (F0 t))%R).
  { intro t. eapply Rle_trans; [apply HB|]. right. f_equal. rewrite <- (n1_opp n (F0 t)). apply n1_ext. intros i Hi. rewrite wl_vminus, HTs, Hwl by exact Hi.
    unfold G, F0. rewrite <- (H0 i Hi). ring. }
  assert (HX: forall t, exists X, (Rabs t < delta0)%R -> (n1 n (vminus X x0) <= 2 * (K * n1 n (F0 t)))%R /\ veq n (T t X) X).
  { intro t. destruct (Rlt_dec (Rabs t) delta0) as [Ht|Ht]; [|exists x0; intro; contradiction].
    destruct (Hdc t Ht) as [D1 D2]. assert (Pd := n1_ge0 n (d t)). assert (Pct := n1_ge0 n (c t)).
    destruct (contraction n (T t) x0 r Hr) as (X & X1 & X2).
    - intros x y Hx Hy. eapply Rle_trans; [apply HTL|].
      assert (HG: (n1 n (vminus (G t x) (G t y)) <= (C1 * r + n1 n (d t) + n1 n (c t) * C2) * n1 n (vminus x y))%R).
      { unfold n1 at 1. change (n1 n (vminus x y)) with (rsum n (fun k => Cmod (vminus x y k))). rewrite <- (rsum_scal n (C1 * r + n1 n (d t) + n1 n (c t) * C2) (fun k => Cmod (vminus x y k))). apply rsum_le. intros i Hi.
        set (u := vminus x x0 i). set (v := vminus y x0 i).
        assert (Hu: (Cmod u <= r)%R) by (eapply Rle_trans; [apply (n1_comp n (vminus x x0) i Hi)|exact Hx]).
        assert (Hv: (Cmod v <= r)%R) by (eapply Rle_trans; [apply (n1_comp n (vminus y x0) i Hi)|exact Hy]).
        assert (Ex: x i = (x0 i + u)%C) by (unfold u, vminus; ring). assert (Ey: y i = (x0 i + v)%C) by (unfold v, vminus; ring).
        assert (Euv: vminus x y i = (u - v)%C) by (unfold u, v, vminus; ring). rewrite Euv.
        assert (E: vminus (G t x) (G t y) i = (- (c0 i * (kf (x0 i + u) - kf (x0 i + v) - (RtoC 2 * (x0 i * Cconj (x0 i)) * (u - v) + x0 i * x0 i * Cconj (u - v)))
             + (d t i * (u - v) + c t i * (kf (x0 i + u) - kf (x0 i + v)))))%C).
        { unfold vminus, G. rewrite Ex, Ey. rewrite !Cconj_plus, Cconj_minus. ring. }
        rewrite E, Cmod_opp. assert (Z1: (Cmod (x0 i) <= Z)%R) by (apply n1_comp; exact Hi). assert (Z0 := Cmod_ge_0 (x0 i)).
        assert (Cc: (Cmod (c0 i) <= n1 n c0)%R) by (apply n1_comp; exact Hi). assert (Cd: (Cmod (d t i) <= n1 n (d t))%R) by (apply n1_comp; exact Hi).
        assert (Ce: (Cmod (c t i) <= n1 n (c t))%R) by (apply n1_comp; exact Hi). assert (Pw := Cmod_ge_0 (u - v)%C).
        assert (B1 := kf_lin_lip (x0 i) u v r Hu Hv Hr1). assert (B2 := kf_lip2 (x0 i) u v ltac:(lra) ltac:(lra)).
        eapply Rle_trans; [apply Cmod_triangle|]. assert (TT := Cmod_triangle (d t i * (u - v))%C (c t i * (kf (x0 i + u) - kf (x0 i + v)))%C).
        rewrite !Cmod_mult in TT. rewrite Cmod_mult.
        assert (S1: (Cmod (c0 i) * Cmod (kf (x0 i + u) - kf (x0 i + v) - (RtoC 2 * (x0 i * Cconj (x0 i)) * (u - v) + x0 i * x0 i * Cconj (u - v)))%C <= C1 * r * Cmod (u - v)%C)%R).
        { unfold C1. replace (n1 n c0 * (6 * Z + 3) * r * Cmod (u - v)%C)%R with (n1 n c0 * ((6 * Z + 3) * r * Cmod (u - v)%C))%R by ring.
          apply Rmult_le_compat; [apply Cmod_ge_0|apply Cmod_ge_0|exact Cc|]. eapply Rle_trans; [exact B1|]. apply Rmult_le_compat_r; [exact Pw|]. apply Rmult_le_compat_r; lra. }
        assert (S2: (Cmod (d t i) * Cmod (u - v)%C <= n1 n (d t) * Cmod (u - v)%C)%R) by (apply Rmult_le_compat_r; assumption).
        assert (S3: (Cmod (c t i) * Cmod (kf (x0 i + u) - kf (x0 i + v))%C <= n1 n (c t) * C2 * Cmod (u - v)%C)%R).
        { rewrite Rmult_assoc. apply Rmult_le_compat; [apply Cmod_ge_0|apply Cmod_ge_0|exact Ce|]. eapply Rle_trans; [exact B2|]. apply Rmult_le_compat_r; [exact Pw|].
          unfold C2. nra. }
        lra. }
      assert (HS: (C1 * r + n1 n (d t) + n1 n (c t) * C2 <= 1 / (2 * K))%R).
      { assert (Q1: (n1 n (d t) <= 1 / (8 * K))%R) by (eapply Rle_trans; [exact D1|apply Rmin_l]).
        assert (Q2: (n1 n (c t) * C2 <= 1 / (8 * K))%R).
        { assert (Q: (n1 n (c t) <= 1 / (8 * K * C2))%R) by (eapply Rle_trans; [exact D2|apply Rmin_l]).
          apply (Rmult_le_compat_r C2) in Q; [|lra]. replace (1 / (8 * K * C2) * C2)%R with (1 / (8 * K))%R in Q by (field; split; lra). exact Q. }
        replace (1 / (2 * K))%R with (1 / (4 * K) + 1 / (8 * K) + 1 / (8 * K))%R by (field; lra). lra. }
      apply (Rmult_le_compat_l K) in HG; [|lra]. eapply Rle_trans; [exact HG|]. rewrite <- Rmult_assoc. apply Rmult_le_compat_r; [apply n1_ge0|].
      apply (Rmult_le_compat_l K) in HS; [|lra]. replace (K * (1 / (2 * K)))%R with (1 / 2)%R in HS by (field; lra). exact HS.
    - eapply Rle_trans; [apply HT0|]. eapply Rle_trans; [apply Rmult_le_compat_l; [lra|apply HF0]|].
      assert (Q1: (n1 n (d t) * Z <= r / (4 * K))%R).
      { assert (Q: (n1 n (d t) <= r / (4 * K * (Z + 1)))%R) by (eapply Rle_trans; [exact D1|apply Rmin_r]).
        apply (Rmult_le_compat_r (Z + 1)) in Q; [|lra]. replace (r / (4 * K * (Z + 1)) * (Z + 1))%R with (r / (4 * K))%R in Q by (field; split; lra). nra. }
      assert (Q2: (n1 n (c t) * n1 n kx <= r / (4 * K))%R).
      { assert (Q: (n1 n (c t) <= r / (4 * K * (n1 n kx + 1)))%R) by (eapply Rle_trans; [exact D2|apply Rmin_r]).
        apply (Rmult_le_compat_r (n1 n kx + 1)) in Q; [|lra]. replace (r / (4 * K * (n1 n kx + 1)) * (n1 n kx + 1))%R with (r / (4 * K))%R in Q by (field; split; lra). nra. }
      apply Rle_trans with (K * (r / (4 * K) + r / (4 * K)))%R; [apply Rmult_le_compat_l; lra|]. right. field. lra.
    - exists X. intros _. split; [|exact X2]. eapply Rle_trans; [exact X1|]. apply Rmult_le_compat_l; [lra|]. apply HT0. }
  set (X := fun t => proj1_sig (constructive_indefinite_description _ (HX t))).
  assert (HXs: forall t, (Rabs t < delta0)%R -> (n1 n (vminus (X t) x0) <= 2 * (K * n1 n (F0 t)))%R /\ veq n (T t (X t)) (X t)).
  { intro t. exact (proj2_sig (constructive_indefinite_description _ (HX t))). }
  assert (HXsmall: vsmall0 n (fun t => vminus (X t) x0)).
  { intros eps He. set (q := (eps / (4 * K * (Z + n1 n kx + 1)))%R). assert (Hq: (0 < q)%R) by (apply Rdiv_lt_0_compat; nra).
    destruct (vsmall2 n d c q q Hd Hc Hq Hq) as (d1 & P1 & Q1). exists (Rmin d1 delta0). split; [apply Rmin_pos; assumption|].
    intros t Ht. assert (A1 := Rmin_l d1 delta0). assert (A2 := Rmin_r d1 delta0). destruct (Q1 t ltac:(lra)) as [D1 D2].
    destruct (HXs t ltac:(lra)) as [X1 _]. eapply Rle_trans; [exact X1|].
    assert (B1: (n1 n (F0 t) <= q * (Z + n1 n kx + 1))%R). { eapply Rle_trans; [apply HF0|]. nra. }
    apply Rle_trans with (2 * (K * (q * (Z + n1 n kx + 1))))%R; [apply Rmult_le_compat_l; [lra|apply Rmult_le_compat_l; lra]|].
    unfold q. replace (2 * (K * (eps / (4 * K * (Z + n1 n kx + 1)) * (Z + n1 n kx + 1))))%R with (eps / 2)%R by (field; split; nra). lra. }
  exists X, delta0. split; [exact Hdel|]. split; [|split; [exact HXsmall|]].
  - intros k Hk. assert (E := vsmall0_0 n _ HXsmall k Hk). unfold vminus in E. replace (X 0%R k) with (X 0%R k - x0 k + x0 k)%C by ring. rewrite E. ring.
  - intros t Ht i Hi. destruct (HXs t Ht) as [_ X2]. assert (E := HTs t (X t) i Hi).
    assert (E2: wl n L11 L12 (T t (X t)) i = wl n L11 L12 (X t) i).
    { unfold wl. f_equal; apply mv_ext_v; [exact X2|]. intros k Hk. unfold vconj. rewrite X2 by exact Hk. reflexivity. }
    rewrite E2, Hwl in E by exact Hi. unfold G in E.
    apply (f_equal (fun z => (z - (RtoC 2 * c0 i * (x0 i * Cconj (x0 i)) * X t i + c0 i * (x0 i * x0 i) * Cconj (X t i)) + c0 i * kf (X t i) + d t i * X t i + c t i * kf (X t i))%C)) in E.
    transitivity (mv n A (X t) i + (RtoC 2 * c0 i * (x0 i * Cconj (x0 i)) * X t i + c0 i * (x0 i * x0 i) * Cconj (X t i)) - (RtoC 2 * c0 i * (x0 i * Cconj (x0 i)) * X t i + c0 i * (x0 i * x0 i) * Cconj (X t i)) + c0 i * kf (X t i) + d t i * X t i + c t i * kf (X t i))%C; [ring|].
    rewrite E. ring.
Qed.
