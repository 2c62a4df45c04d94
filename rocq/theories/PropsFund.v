(** C118: the fundamental mode of a line. *)
From Coq Require Import Reals Lra Lia List ZArith Arith Bool String Classical ClassicalEpsilon.
From Coquelicot Require Import Coquelicot.
From Verif Require Import Base Linear MCore MSim MFilter MOpt MMode Spec PCore PSim PropsCore PSym PropsSolve PEx PExOpt PropsFlux PMode PropsMode PropsSolv PropsOpt3 PropsGuide.
Import ListNotations.
Local Open Scope nat_scope.

(** ** Periodic chains: d_j u_j + c_(j+1) (u_(j+1) - u_j) - c_j (u_j - u_(j-1)) = b rho_j u_j *)
Definition chain (N : nat) (c d : nat -> R) (u : nat -> R) (j : nat) : R :=
  (d j * u j + c (next N j) * (u (next N j) - u j) - c j * (u j - u (prev N j)))%R.
Definition chain_mode (N : nat) (c d rho : nat -> R) (b : R) (u : nat -> R) : Prop := forall j, j < N -> chain N c d u j = (b * rho j * u j)%R.
Definition bil (N : nat) (c d x y : nat -> R) : R := (rsum N (fun j => d j * (x j * y j)) - rsum N (fun j => c j * ((x j - x (prev N j)) * (y j - y (prev N j)))))%R.
Definition wsq (N : nat) (rho x : nat -> R) : R := rsum N (fun j => rho j * x j ^ 2)%R.

Lemma chain_parts N c d x y : rsum N (fun j => x j * chain N c d y j)%R = bil N c d x y.
Proof.
  unfold bil, chain.
  rewrite (rsum_ext N _ (fun j => (d j * (x j * y j) + x j * (c (next N j) * (y (next N j) - y j))) - x j * (c j * (y j - y (prev N j))))%R) by (intros; ring).
  rewrite rsum_minus, rsum_plus.
  assert (E : rsum N (fun j => x j * (c (next N j) * (y (next N j) - y j)))%R = rsum N (fun j => x (prev N j) * (c j * (y j - y (prev N j))))%R).
  { rewrite <- (rsum_next N (fun j => x (prev N j) * (c j * (y j - y (prev N j))))%R). apply rsum_ext. intros j Hj. rewrite prev_next by exact Hj. reflexivity. }
  rewrite E. unfold Rminus. rewrite Rplus_assoc. f_equal. rewrite <- !rsum_opp, <- rsum_plus. apply rsum_ext. intros. ring.
Qed.
Lemma bil_sym N c d x y : bil N c d x y = bil N c d y x.
Proof. unfold bil. f_equal; apply rsum_ext; intros; ring. Qed.
Lemma bil_lin N c d a b x y z : bil N c d (fun j => a * x j + b * y j)%R z = (a * bil N c d x z + b * bil N c d y z)%R.
Proof.
  unfold bil. rewrite !Rmult_minus_distr_l, <- !rsum_scal.
  rewrite (rsum_ext N (fun j => d j * ((a * x j + b * y j) * z j))%R (fun j => (a * (d j * (x j * z j)) + b * (d j * (y j * z j))))%R) by (intros; ring). rewrite rsum_plus.
  rewrite (rsum_ext N (fun j => c j * ((a * x j + b * y j - (a * x (prev N j) + b * y (prev N j))) * (z j - z (prev N j))))%R (fun j => (a * (c j * ((x j - x (prev N j)) * (z j - z (prev N j)))) + b * (c j * ((y j - y (prev N j)) * (z j - z (prev N j))))))%R) by (intros; ring). rewrite rsum_plus. ring.
Qed.
Lemma bil_quad N c d t x y : bil N c d (fun j => 1 * x j + t * y j)%R (fun j => 1 * x j + t * y j)%R = (bil N c d x x + 2 * t * bil N c d x y + t ^ 2 * bil N c d y y)%R.
Proof. rewrite bil_lin. rewrite !(bil_sym N c d _ (fun j => 1 * x j + t * y j)%R), !bil_lin. rewrite (bil_sym N c d y x). ring. Qed.
Lemma bil_mode N c d rho b x y : chain_mode N c d rho b y -> bil N c d x y = (b * rsum N (fun j => rho j * (x j * y j)))%R.
Proof. intro H. rewrite <- chain_parts, <- rsum_scal. apply rsum_ext. intros j Hj. rewrite (H j Hj). ring. Qed.

(** q(x) = b W(x) - bil(x, x) >= 0 with q(x) = 0 only for modes *)
Lemma residual_small N c d rho b K x : (0 < K)%R -> (forall y, (0 <= b * wsq N rho y - bil N c d y y <= K * rsum N (fun j => y j ^ 2))%R) ->
  (rsum N (fun j => (b * rho j * x j - chain N c d x j) ^ 2) <= K * (b * wsq N rho x - bil N c d x x))%R.
Proof.
  intros HK HQ. set (y := fun j => (b * rho j * x j - chain N c d x j)%R). set (Y := rsum N (fun j => (y j ^ 2))%R).
  set (q := fun z => (b * wsq N rho z - bil N c d z z)%R).
  assert (XY : (b * rsum N (fun j => rho j * (x j * y j)) - bil N c d x y = Y)%R).
  { rewrite bil_sym, <- chain_parts, <- rsum_scal, <- rsum_minus. apply rsum_ext. intros j Hj. unfold y. ring. }
  set (t := (- / K)%R). assert (A := proj1 (HQ (fun j => 1 * x j + t * y j)%R)). rewrite bil_quad in A.
  assert (W : wsq N rho (fun j => 1 * x j + t * y j)%R = (wsq N rho x + 2 * t * rsum N (fun j => rho j * (x j * y j)) + t ^ 2 * wsq N rho y)%R).
  { unfold wsq. rewrite <- !rsum_scal, <- !rsum_plus. apply rsum_ext. intros. ring. }
  rewrite W in A. assert (B := proj2 (HQ y)). change (rsum N (fun j => (y j ^ 2))%R) with Y in B.
  assert (E : (b * (wsq N rho x + 2 * t * rsum N (fun j => rho j * (x j * y j)) + t ^ 2 * wsq N rho y) - (bil N c d x x + 2 * t * bil N c d x y + t ^ 2 * bil N c d y y) =
    q x + 2 * t * (b * rsum N (fun j => rho j * (x j * y j)) - bil N c d x y) + t ^ 2 * q y)%R) by (unfold q; ring).
  rewrite E, XY in A. change (q y <= K * Y)%R in B. change (Y <= K * q x)%R.
  assert (T2 : (t ^ 2 * q y <= t ^ 2 * (K * Y))%R) by (apply Rmult_le_compat_l; [apply pow2_ge_0|exact B]).
  assert (T3 : (t ^ 2 * (K * Y) = / K * Y)%R) by (unfold t; field; lra).
  assert (T4 : (/ K * Y <= q x)%R) by (unfold t in *; lra). apply (Rmult_le_compat_l K) in T4; [|lra]. rewrite <- Rmult_assoc, Rinv_r, Rmult_1_l in T4 by lra. exact T4.
Qed.

Definition coef_bound (N : nat) (f : nat -> R) : R := rsum N (fun j => Rabs (f j)).
Lemma coef_le N f j : j < N -> (Rabs (f j) <= coef_bound N f)%R.
Proof. intro H. exact (rsum_term_le N (fun j => Rabs (f j)) j (fun k _ => Rabs_pos _) H). Qed.
Lemma form_bound N c d rho b : exists K, (0 < K)%R /\ forall y, (b * wsq N rho y - bil N c d y y <= K * rsum N (fun j => y j ^ 2))%R.
Proof.
  set (Cb := coef_bound N c). set (K := (coef_bound N (fun j => b * rho j - d j) + 4 * Cb + 1)%R).
  assert (P : forall f, (0 <= coef_bound N f)%R) by (intro f; apply rsum_ge0; intros; apply Rabs_pos).
  exists K. split; [unfold K, Cb; assert (A := P (fun j => b * rho j - d j)%R); assert (B := P c); lra|]. intro y.
  assert (D : (rsum N (fun j => y (prev N j) ^ 2) = rsum N (fun j => y j ^ 2))%R).
  { rewrite <- (rsum_next N (fun j => y (prev N j) ^ 2)%R). apply rsum_ext. intros j Hj. rewrite prev_next by exact Hj. reflexivity. }
  apply Rle_trans with (rsum N (fun j => coef_bound N (fun j => b * rho j - d j) * y j ^ 2 + 2 * Cb * (y j ^ 2 + y (prev N j) ^ 2)))%R.
  - unfold wsq, bil. rewrite <- rsum_scal, <- !rsum_minus. apply rsum_le. intros j Hj.
    assert (A := coef_le N (fun j => b * rho j - d j)%R j Hj). assert (B := coef_le N c j Hj). cbv beta in A. fold Cb in B.
    set (a := coef_bound N (fun j => b * rho j - d j)%R) in *. assert (A' := Rle_abs (b * rho j - d j)). assert (B' := Rle_abs (c j)).
    set (u := y j). set (v := y (prev N j)). assert (Q1 : ((b * rho j - d j) * u ^ 2 <= a * u ^ 2)%R) by (apply Rmult_le_compat_r; [apply pow2_ge_0|lra]).
    assert (Q2 : (c j * (u - v) ^ 2 <= Cb * (u - v) ^ 2)%R) by (apply Rmult_le_compat_r; [apply pow2_ge_0|lra]).
    assert (Q3 : (Cb * (u - v) ^ 2 <= Cb * (2 * (u ^ 2 + v ^ 2)))%R). { apply Rmult_le_compat_l; [apply P|]. assert (Z := pow2_ge_0 (u + v)). nra. }
    lra.
  - rewrite rsum_plus, !rsum_scal, rsum_plus, D. assert (Z : (0 <= rsum N (fun j => y j ^ 2))%R) by (apply rsum_ge0; intros; apply pow2_ge_0). unfold K. nra.
Qed.

(** the matrix of b rho - chain *)
Definition delta (k j : nat) : R := if Nat.eqb j k then 1%R else 0%R.
Lemma delta_sum N (x : nat -> R) j : j < N -> rsum N (fun k => x k * delta k j)%R = x j.
Proof.
  intro Hj. rewrite (rsum_ext N _ (fun k => if Nat.eqb k j then x k else 0%R)). 2:{ intros k Hk. unfold delta. rewrite (Nat.eqb_sym j k). destruct (Nat.eqb k j); ring. }
  apply rsum_delta. exact Hj.
Qed.
Definition res_mat (N : nat) (c d rho : nat -> R) (b : R) : mat := fun j k => RtoC (b * rho j * delta k j - chain N c d (delta k) j).
Lemma res_mat_form N c d rho b (x : nat -> R) j : j < N -> rsum N (fun k => (b * rho j * delta k j - chain N c d (delta k) j) * x k)%R = (b * rho j * x j - chain N c d x j)%R.
Proof.
  intro Hj. unfold chain. assert (Hn := next_lt N j Hj). assert (Hp := prev_lt N j Hj).
  rewrite (rsum_ext N _ (fun k => (b * rho j - d j + c (next N j) + c j) * (x k * delta k j) - c (next N j) * (x k * delta k (next N j)) - c j * (x k * delta k (prev N j)))%R) by (intros; ring).
  rewrite !rsum_minus, !rsum_scal, !delta_sum by assumption. ring.
Qed.
Lemma csum_parts N f : csum N f = (rsum N (fun k => Re (f k)), rsum N (fun k => Im (f k))).
Proof. induction N; cbn [csum rsum]; [reflexivity|]. rewrite IHN. destruct (f N) as [a b]. reflexivity. Qed.
Lemma res_mat_mv N c d rho b (v : vec) j : j < N ->
  mv N (res_mat N c d rho b) v j = ((b * rho j * Re (v j) - chain N c d (fun k => Re (v k)) j)%R, (b * rho j * Im (v j) - chain N c d (fun k => Im (v k)) j)%R).
Proof.
  intro Hj. rewrite <- (res_mat_form N c d rho b (fun k => Re (v k)) j Hj), <- (res_mat_form N c d rho b (fun k => Im (v k)) j Hj).
  unfold mv. rewrite csum_parts. f_equal; apply rsum_ext; intros k Hk; unfold res_mat; destruct (v k) as [p q]; cbn; ring.
Qed.
Lemma chain_ext N c d x y j : j < N -> (forall k, k < N -> x k = y k) -> chain N c d x j = chain N c d y j.
Proof. intros Hj H. unfold chain. rewrite !H by (assumption || apply next_lt || apply prev_lt; assumption). reflexivity. Qed.

Lemma top_mode N c d rho D : 0 < N -> (forall j, j < N -> (0 <= c j)%R) -> (forall j, j < N -> (0 < rho j)%R) -> (forall j, j < N -> (d j <= D * rho j)%R) ->
  exists b u, (forall x, (bil N c d x x <= b * wsq N rho x)%R) /\ chain_mode N c d rho b u /\ (exists j, j < N /\ u j <> 0%R) /\ (b <= D)%R.
Proof.
  intros HN Hc Hr HD.
  assert (UP : forall x, (bil N c d x x <= D * wsq N rho x)%R).
  { intro x. unfold bil, wsq. rewrite <- rsum_scal. assert (A : (0 <= rsum N (fun j => c j * ((x j - x (prev N j)) * (x j - x (prev N j)))))%R).
    { apply rsum_ge0. intros k Hk. apply Rmult_le_pos; [apply Hc; exact Hk|apply Rle_0_sqr]. }
    assert (B : (rsum N (fun j => d j * (x j * x j)) <= rsum N (fun j => D * (rho j * x j ^ 2)))%R).
    { apply rsum_le. intros k Hk. replace (D * (rho k * x k ^ 2))%R with ((D * rho k) * (x k * x k))%R by ring. apply Rmult_le_compat_r; [apply Rle_0_sqr|apply HD; exact Hk]. }
    lra. }
  assert (W0 : forall x, (0 <= wsq N rho x)%R). { intro x. apply rsum_ge0. intros k Hk. apply Rmult_le_pos; [apply Rlt_le, Hr; exact Hk|apply pow2_ge_0]. }
  assert (WP : forall x, (exists j, j < N /\ x j <> 0%R) -> (0 < wsq N rho x)%R).
  { intros x (j & Hj & NZ). apply Rlt_le_trans with (rho j * x j ^ 2)%R; [apply Rmult_lt_0_compat; [apply Hr; exact Hj|apply pow2_gt_0; exact NZ]|].
    apply (rsum_term_le N (fun j => rho j * x j ^ 2)%R j); [|exact Hj]. intros k Hk. apply Rmult_le_pos; [apply Rlt_le, Hr; exact Hk|apply pow2_ge_0]. }
  assert (WZ : forall x, wsq N rho x = 0%R -> forall j, j < N -> x j = 0%R).
  { intros x HX j Hj. apply NNPP. intro K. assert (Q := WP x (ex_intro _ j (conj Hj K))). lra. }
  assert (SC : forall t x, bil N c d (fun j => t * x j)%R (fun j => t * x j)%R = (t ^ 2 * bil N c d x x)%R /\ wsq N rho (fun j => t * x j)%R = (t ^ 2 * wsq N rho x)%R).
  { intros t x. split; [|unfold wsq; rewrite <- rsum_scal; apply rsum_ext; intros; ring]. unfold bil. rewrite Rmult_minus_distr_l, <- !rsum_scal. f_equal; apply rsum_ext; intros; ring. }
  set (E := fun r : R => exists x, wsq N rho x = 1%R /\ r = bil N c d x x).
  destruct (completeness E) as (b & UB & LB).
  { exists D. intros r (x & HW & ->). assert (Q := UP x). rewrite HW in Q. lra. }
  { set (x := fun j => (/ sqrt (rho O) * delta O j)%R). exists (bil N c d x x), x. split; [|reflexivity]. unfold wsq, x.
    assert (R0 := Hr 0 HN). rewrite (rsum_ext N _ (fun j => if Nat.eqb j O then 1%R else 0%R)).
    - rewrite (rsum_delta N 0 (fun _ => 1%R) HN). reflexivity.
    - intros k Hk. unfold delta. destruct (Nat.eqb_spec k 0) as [->|]; [|ring]. rewrite Rmult_1_r. rewrite pow_inv.
      rewrite <- Rsqr_pow2, Rsqr_sqrt by lra. field. lra. }
  assert (MX : forall x, (bil N c d x x <= b * wsq N rho x)%R).
  { intro x. destruct (Req_dec (wsq N rho x) 0) as [Z|NZ].
    - rewrite Z. assert (Q := UP x). rewrite Z in Q. lra.
    - assert (P : (0 < wsq N rho x)%R) by (assert (Q := W0 x); lra). set (t := (/ sqrt (wsq N rho x))%R). destruct (SC t x) as (S1 & S2).
      assert (T2 : (t ^ 2 = / wsq N rho x)%R). { unfold t. rewrite pow_inv. rewrite <- Rsqr_pow2, Rsqr_sqrt by lra. reflexivity. }
      assert (Q : (bil N c d (fun j => t * x j)%R (fun j => t * x j)%R <= b)%R). { apply UB. exists (fun j => t * x j)%R. split; [rewrite S2, T2; field; exact NZ|reflexivity]. }
      rewrite S1, T2 in Q. apply (Rmult_le_compat_l (wsq N rho x)) in Q; [|lra]. rewrite <- Rmult_assoc, Rinv_r, Rmult_1_l in Q by exact NZ. lra. }
  destruct (form_bound N c d rho b) as (K & HK & KB).
  assert (RS := fun x => residual_small N c d rho b K x HK ltac:(intro y; assert (Q := MX y); assert (Q' := KB y); lra)).
  assert (NS : ~ nonsingular N (res_mat N c d rho b)).
  { intros (B & HB & _).
    set (G := rsum N (fun j => rho j * (rsum N (fun k => Rabs (Re (B j k)))) ^ 2)%R).
    assert (G0 : (0 <= G)%R) by (apply rsum_ge0; intros k Hk; apply Rmult_le_pos; [apply Rlt_le, Hr; exact Hk|apply pow2_ge_0]).
    assert (LO : forall x, wsq N rho x = 1%R -> (1 <= G * K * (b - bil N c d x x))%R).
    { intros x HW. set (y := fun j => (b * rho j * x j - chain N c d x j)%R). set (Y := rsum N (fun j => y j ^ 2)%R).
      assert (HY : (Y <= K * (b - bil N c d x x))%R) by (assert (Q := RS x); rewrite HW, Rmult_1_r in Q; exact Q).
      assert (XB : forall j, j < N -> x j = rsum N (fun k => Re (B j k) * y k)%R).
      { intros j Hj. assert (Q : mv N (mm N B (res_mat N c d rho b)) (fun k => RtoC (x k)) j = RtoC (x j)).
        { rewrite (mv_ext N _ mId _ (fun k => RtoC (x k)) HB (fun k _ => eq_refl) j Hj). apply mv_Id; exact Hj. }
        rewrite mv_mm in Q. unfold mv at 1 in Q. rewrite csum_parts in Q. apply (f_equal Re) in Q. cbn [Re fst RtoC] in Q. rewrite <- Q. apply rsum_ext. intros k Hk.
        rewrite (res_mat_mv N c d rho b _ k Hk). assert (Z : chain N c d (fun k0 => Im (RtoC (x k0))) k = 0%R) by (unfold chain; cbn; ring). rewrite Z.
        change (chain N c d (fun k0 => Re (RtoC (x k0))) k) with (chain N c d x k). change (b * rho k * Re (RtoC (x k)) - chain N c d x k)%R with (y k). cbn [Im RtoC snd]. destruct (B j k) as [p q]. cbn. ring. }
      assert (Y0 : (0 <= Y)%R) by (apply rsum_ge0; intros; apply pow2_ge_0).
      assert (XS : forall j, j < N -> (x j ^ 2 <= rsum N (fun k => Rabs (Re (B j k))) ^ 2 * Y)%R).
      { intros j Hj. assert (A : (Rabs (x j) <= rsum N (fun k => Rabs (Re (B j k))) * sqrt Y)%R).
        { rewrite (XB j Hj). eapply Rle_trans; [apply rsum_abs|]. rewrite <- rsum_scal_r. apply rsum_le. intros k Hk. rewrite Rabs_mult. apply Rmult_le_compat_l; [apply Rabs_pos|].
          rewrite <- sqrt_Rsqr_abs. apply sqrt_le_1_alt. unfold Rsqr. assert (Q := rsum_term_le N (fun j => y j ^ 2)%R k (fun i _ => pow2_ge_0 _) Hk). cbv beta in Q. fold Y in Q. lra. }
        rewrite <- (pow2_abs (x j)). assert (Q := pow_incr (Rabs (x j)) _ 2 (conj (Rabs_pos _) A)). rewrite Rpow_mult_distr in Q.
        assert (SY : (sqrt Y ^ 2 = Y)%R) by (rewrite <- Rsqr_pow2; apply Rsqr_sqrt; exact Y0). rewrite SY in Q. exact Q. }
      assert (WG : (wsq N rho x <= G * Y)%R).
      { unfold wsq, G. rewrite <- rsum_scal_r. apply rsum_le. intros j Hj. rewrite Rmult_assoc. apply Rmult_le_compat_l; [apply Rlt_le, Hr; exact Hj|apply XS; exact Hj]. }
      rewrite HW in WG. eapply Rle_trans; [exact WG|]. rewrite Rmult_assoc. apply Rmult_le_compat_l; assumption. }
    set (ep := (/ (2 * (G * K + 1)))%R). assert (GK : (0 <= G * K)%R) by (apply Rmult_le_pos; lra). assert (EP : (0 < ep)%R) by (apply Rinv_0_lt_compat; lra).
    assert (LU : is_upper_bound E (b - ep)).
    { intros r (x & HW & ->). destruct (Rle_dec (bil N c d x x) (b - ep)) as [|NL]; [assumption|exfalso]. assert (Q := LO x HW). assert (M := UB (bil N c d x x) ltac:(exists x; auto)).
      assert (Q1 : (G * K * (b - bil N c d x x) <= G * K * ep)%R) by (apply Rmult_le_compat_l; lra).
      assert (Q2 : ((G * K + 1) * ep = / 2)%R) by (unfold ep; field; lra). lra. }
    assert (Q := LB _ LU). lra. }
  assert (KER : exists v : vec, (forall r, r < N -> mv N (res_mat N c d rho b) v r = RtoC 0) /\ exists j, j < N /\ v j <> RtoC 0).
  { apply NNPP. intro K0. apply NS. apply injective_nonsingular. intros v Hv j Hj. apply NNPP. intro K1. apply K0. exists v. split; [exact Hv|]. exists j. auto. }
  destruct KER as (v & HV & j0 & Hj0 & NZ).
  assert (MD : chain_mode N c d rho b (fun k => Re (v k)) /\ chain_mode N c d rho b (fun k => Im (v k))).
  { split; intros j Hj; assert (Q := HV j Hj); rewrite res_mat_mv in Q by exact Hj; [apply (f_equal Re) in Q|apply (f_equal Im) in Q]; cbn in Q; lra. }
  assert (BD : (b <= D)%R). { apply LB. intros r (x & HW & ->). assert (Q := UP x). rewrite HW in Q. lra. }
  destruct (Req_dec (Re (v j0)) 0) as [Z|NR].
  - exists b, (fun k => Im (v k)). split; [exact MX|]. split; [apply MD|]. split; [|exact BD]. exists j0. split; [exact Hj0|]. intro Z2. apply NZ. apply C_ext; assumption.
  - exists b, (fun k => Re (v k)). split; [exact MX|]. split; [apply MD|]. split; [|exact BD]. exists j0. auto.
Qed.

(** the mode of largest b has no zeros and is simple *)
Definition top_of (N : nat) (c d rho : nat -> R) (b : R) : Prop := forall x, (bil N c d x x <= b * wsq N rho x)%R.
Lemma top_abs N c d rho b u : 0 < N -> (forall j, j < N -> (0 < c j)%R) -> top_of N c d rho b -> chain_mode N c d rho b u -> (exists j, j < N /\ u j <> 0%R) ->
  chain_mode N c d rho b (fun j => Rabs (u j)) /\ forall j, j < N -> (0 < Rabs (u j))%R.
Proof.
  intros HN Hc HT HU (j0 & Hj0 & NZ). set (w := fun j => Rabs (u j)).
  destruct (form_bound N c d rho b) as (K & HK & KB).
  assert (RS := residual_small N c d rho b K w HK ltac:(intro y; assert (Q := HT y); assert (Q' := KB y); lra)).
  assert (WE : wsq N rho w = wsq N rho u) by (apply rsum_ext; intros; unfold w; rewrite pow2_abs; reflexivity).
  assert (BU : bil N c d u u = (b * wsq N rho u)%R). { rewrite (bil_mode N c d rho b u u HU). f_equal. apply rsum_ext. intros. ring. }
  assert (BW : (bil N c d u u <= bil N c d w w)%R).
  { unfold bil. apply Rplus_le_compat.
    - apply rsum_le. intros j Hj. replace (w j * w j)%R with (w j ^ 2)%R by ring. unfold w. rewrite pow2_abs. right. ring.
    - apply Ropp_le_contravar, rsum_le. intros j Hj. apply Rmult_le_compat_l; [apply Rlt_le, Hc; exact Hj|].
      assert (Q := Rabs_triang_inv2 (u j) (u (prev N j))). fold (w j) in Q. fold (w (prev N j)) in Q.
      apply Rsqr_le_abs_1. exact Q. }
  assert (Z : (rsum N (fun j => (b * rho j * w j - chain N c d w j) ^ 2) = 0)%R).
  { apply Rle_antisym; [|apply rsum_ge0; intros; apply pow2_ge_0]. eapply Rle_trans; [exact RS|]. rewrite WE. assert (Q : (b * wsq N rho u - bil N c d w w <= 0)%R) by lra.
    replace 0%R with (K * 0)%R by ring. apply Rmult_le_compat_l; lra. }
  assert (MW : chain_mode N c d rho b w).
  { intros j Hj. assert (Q := rsum_eq0 N _ (fun k _ => pow2_ge_0 (b * rho k * w k - chain N c d w k)) Z j Hj). cbv beta in Q.
    assert (Q2 : (b * rho j * w j - chain N c d w j = 0)%R) by (apply NNPP; intro X; assert (P := pow2_gt_0 _ X); lra). lra. }
  split; [exact MW|]. assert (P0 : forall j, (0 <= w j)%R) by (intro; apply Rabs_pos).
  intros j Hj. apply NNPP. intro NP. assert (Zj : w j = 0%R) by (assert (Q := P0 j); fold (w j) in NP; lra).
  assert (AZ : forall k, k < N -> w k = 0%R).
  { apply (next_walk N (fun k => w k = 0%R) j Hj Zj). intros k Hk E. assert (Q := MW k Hk). unfold chain in Q. rewrite E in Q.
    assert (A := P0 (next N k)). assert (B := P0 (prev N k)). assert (C1 := Hc _ (next_lt N k Hk)). assert (C2 := Hc k Hk).
    assert (S1 : (0 <= c (next N k) * w (next N k))%R) by (apply Rmult_le_pos; lra). assert (S2 : (0 <= c k * w (prev N k))%R) by (apply Rmult_le_pos; lra).
    assert (S3 : (c (next N k) * w (next N k) = 0)%R) by lra. apply Rmult_integral in S3 as [S3|S3]; [lra|exact S3]. }
  assert (Q := AZ j0 Hj0). unfold w in Q. apply NZ. apply NNPP. intro X. assert (Y := Rabs_no_R0 _ X). contradiction.
Qed.
Lemma chain_lin N c d a b x y j : chain N c d (fun k => a * x k + b * y k)%R j = (a * chain N c d x j + b * chain N c d y j)%R.
Proof. unfold chain. ring. Qed.
Lemma positive_simple_chain N c d rho b u v : 0 < N -> (forall j, j < N -> (0 < c j)%R) -> (forall j, j < N -> (0 < u j)%R) -> chain_mode N c d rho b u -> chain_mode N c d rho b v ->
  exists t, forall j, j < N -> v j = (t * u j)%R.
Proof.
  intros HN Hc HP HU HV. destruct (argmin N (fun j => v j / u j)%R HN) as (k & Hk & HM). set (t := (v k / u k)%R) in *. exists t.
  set (w := fun j => (1 * v j + (- t) * u j)%R).
  assert (W0 : forall j, j < N -> (0 <= w j)%R).
  { intros j Hj. unfold w. assert (Q := HM j Hj). cbv beta in Q. assert (P := HP j Hj). assert (v j = (v j / u j) * u j)%R as E by (field; lra). assert ((t * u j <= v j / u j * u j)%R) by (apply Rmult_le_compat_r; lra). lra. }
  assert (HW : chain_mode N c d rho b w). { intros j Hj. unfold w. rewrite chain_lin, (HU j Hj), (HV j Hj). ring. }
  assert (Z : forall j, j < N -> w j = 0%R).
  { apply (next_walk N (fun j => w j = 0%R) k Hk).
    - unfold w, t. assert (P := HP k Hk). field. lra.
    - intros j Hj E. assert (Q := HW j Hj). unfold chain in Q. rewrite E in Q. assert (A := W0 _ (next_lt N j Hj)). assert (B := W0 _ (prev_lt N j Hj)). assert (C1 := Hc _ (next_lt N j Hj)). assert (C2 := Hc j Hj).
      assert (S1 : (0 <= c (next N j) * w (next N j))%R) by (apply Rmult_le_pos; lra). assert (S2 : (0 <= c j * w (prev N j))%R) by (apply Rmult_le_pos; lra).
      assert (S3 : (c (next N j) * w (next N j) = 0)%R) by lra. apply Rmult_integral in S3 as [S3|S3]; [lra|exact S3]. }
  intros j Hj. assert (Q := Z j Hj). unfold w in Q. lra.
Qed.

(** complex modes of a chain *)
Definition chain_eig (N : nat) (c d rho : nat -> R) (lam : C) (v : vec) : Prop := forall j, j < N ->
  (chain N c d (fun k => Re (v k)) j, chain N c d (fun k => Im (v k)) j) = (lam * RtoC (rho j) * v j)%C.
Lemma chain_eig_real N c d rho lam v : (forall j, j < N -> (0 < rho j)%R) -> chain_eig N c d rho lam v -> (exists j, j < N /\ v j <> RtoC 0) ->
  Im lam = 0%R /\ chain_mode N c d rho (Re lam) (fun k => Re (v k)) /\ chain_mode N c d rho (Re lam) (fun k => Im (v k)).
Proof.
  intros Hr HE (j0 & Hj0 & NZ). set (p := fun k => Re (v k)). set (q := fun k => Im (v k)). destruct lam as [x y]. cbn [Re Im fst snd].
  assert (EP : forall j, j < N -> chain N c d p j = (rho j * (x * p j - y * q j))%R).
  { intros j Hj. assert (Q := f_equal Re (HE j Hj)). cbn [Re fst] in Q. fold p in Q. rewrite Q. unfold p, q. destruct (v j) as [a b]. cbn. ring. }
  assert (EQ : forall j, j < N -> chain N c d q j = (rho j * (y * p j + x * q j))%R).
  { intros j Hj. assert (Q := f_equal Im (HE j Hj)). cbn [Im snd] in Q. fold q in Q. rewrite Q. unfold p, q. destruct (v j) as [a b]. cbn. ring. }
  assert (Y0 : y = 0%R).
  { assert (A := bil_sym N c d q p). rewrite <- !chain_parts in A.
    rewrite (rsum_ext N (fun j => q j * chain N c d p j)%R (fun j => x * (rho j * (p j * q j)) + (- y) * (rho j * q j ^ 2))%R) in A by (intros j Hj; rewrite (EP j Hj); ring).
    rewrite (rsum_ext N (fun j => p j * chain N c d q j)%R (fun j => y * (rho j * p j ^ 2) + x * (rho j * (p j * q j)))%R) in A by (intros j Hj; rewrite (EQ j Hj); ring).
    rewrite !rsum_plus, !rsum_scal in A. set (PP := rsum N (fun j => rho j * p j ^ 2)%R) in *. set (QQ := rsum N (fun j => rho j * q j ^ 2)%R) in *.
    assert (P : (0 < PP + QQ)%R).
    { unfold PP, QQ. rewrite <- rsum_plus. assert (T : (0 < rho j0 * p j0 ^ 2 + rho j0 * q j0 ^ 2)%R).
      { assert (R0 := Hr j0 Hj0). assert (X : (0 < p j0 ^ 2 + q j0 ^ 2)%R).
        { destruct (Req_dec (p j0) 0) as [Z1|N1]; [destruct (Req_dec (q j0) 0) as [Z2|N2]|].
          - exfalso. apply NZ. apply C_ext; assumption.
          - assert (A1 := pow2_gt_0 _ N2). assert (A2 := pow2_ge_0 (p j0)). lra.
          - assert (A1 := pow2_gt_0 _ N1). assert (A2 := pow2_ge_0 (q j0)). lra. }
        replace (rho j0 * p j0 ^ 2 + rho j0 * q j0 ^ 2)%R with (rho j0 * (p j0 ^ 2 + q j0 ^ 2))%R by ring. apply Rmult_lt_0_compat; assumption. }
      eapply Rlt_le_trans; [exact T|]. apply (rsum_term_le N (fun j => rho j * p j ^ 2 + rho j * q j ^ 2)%R j0); [|exact Hj0].
      intros k Hk. assert (R0 := Hr k Hk). apply Rplus_le_le_0_compat; apply Rmult_le_pos; (lra || apply pow2_ge_0). }
    assert (Z : (y * (PP + QQ) = 0)%R) by lra. apply Rmult_integral in Z as [Z|Z]; [exact Z|lra]. }
  split; [exact Y0|]. subst y. split; intros j Hj; [rewrite (EP j Hj)|rewrite (EQ j Hj)]; ring.
Qed.

(** Among the modes of a chain, the one nearest to a number r above all of them *)
Lemma nearest_is_top N c d rho D r lam v : 0 < N -> (forall j, j < N -> (0 < c j)%R) -> (forall j, j < N -> (0 < rho j)%R) -> (forall j, j < N -> (d j <= D * rho j)%R) -> (D <= r)%R ->
  chain_eig N c d rho lam v -> (exists j, j < N /\ v j <> RtoC 0) ->
  (forall mu w, chain_eig N c d rho mu w -> (exists j, j < N /\ w j <> RtoC 0) -> (Cmod (lam - RtoC r)%C <= Cmod (mu - RtoC r)%C)%R) ->
  exists b u z, lam = RtoC b /\ top_of N c d rho b /\ chain_mode N c d rho b u /\ (forall j, j < N -> (0 < u j)%R) /\ z <> RtoC 0 /\ (forall j, j < N -> v j = (z * RtoC (u j))%C).
Proof.
  intros HN Hc Hr HD HDr HE NZ HM.
  destruct (top_mode N c d rho D HN (fun j Hj => Rlt_le _ _ (Hc j Hj)) Hr HD) as (b & u0 & HT & HU0 & NZ0 & HB).
  destruct (top_abs N c d rho b u0 HN Hc HT HU0 NZ0) as (HU & PU). set (u := fun j => Rabs (u0 j)) in *.
  destruct (chain_eig_real N c d rho lam v Hr HE NZ) as (I0 & M1 & M2).
  assert (WP : forall x, (exists j, j < N /\ x j <> 0%R) -> (0 < wsq N rho x)%R).
  { intros x (j & Hj & NX). apply Rlt_le_trans with (rho j * x j ^ 2)%R; [apply Rmult_lt_0_compat; [apply Hr; exact Hj|apply pow2_gt_0; exact NX]|].
    apply (rsum_term_le N (fun j => rho j * x j ^ 2)%R j); [|exact Hj]. intros k Hk. apply Rmult_le_pos; [apply Rlt_le, Hr; exact Hk|apply pow2_ge_0]. }
  assert (LE : (Re lam <= b)%R).
  { assert (G : forall x, chain_mode N c d rho (Re lam) x -> (exists j, j < N /\ x j <> 0%R) -> (Re lam <= b)%R).
    { intros x MX NX. assert (P := WP x NX). assert (Q := HT x). rewrite (bil_mode N c d rho (Re lam) x x MX) in Q.
      assert (E : rsum N (fun j => rho j * (x j * x j))%R = wsq N rho x) by (apply rsum_ext; intros; ring). rewrite E in Q. apply (Rmult_le_reg_r (wsq N rho x)); assumption. }
    destruct NZ as (j & Hj & NV). destruct (Req_dec (Re (v j)) 0) as [Z|NR]; [|apply (G _ M1); eauto].
    apply (G _ M2). exists j. split; [exact Hj|]. intro Z2. apply NV. apply C_ext; assumption. }
  assert (NEAR := HM (RtoC b) (fun j => RtoC (u j))).
  assert (CE : chain_eig N c d rho (RtoC b) (fun j => RtoC (u j))).
  { intros j Hj. cbn [Re Im RtoC fst snd]. change (chain N c d (fun k => u k) j) with (chain N c d u j). rewrite (HU j Hj). assert (Z : chain N c d (fun _ => 0%R) j = 0%R) by (unfold chain; ring). rewrite Z. apply C_ext; cbn; ring. }
  specialize (NEAR CE). assert (NE : exists j, j < N /\ RtoC (u j) <> RtoC 0). { exists 0. split; [exact HN|]. apply RtoC_neq0. assert (Q := PU 0 HN). fold (u 0) in Q. lra. }
  specialize (NEAR NE). assert (EL : lam = RtoC (Re lam)) by (apply C_ext; [reflexivity|exact I0]). rewrite EL in NEAR. unfold Cminus in NEAR. rewrite <- !RtoC_opp, <- !RtoC_plus, !Cmod_R in NEAR.
  rewrite !Rabs_left1 in NEAR by lra. assert (EB : Re lam = b) by lra. rewrite EB in *.
  destruct (positive_simple_chain N c d rho b u _ HN Hc PU HU M1) as (t1 & T1). destruct (positive_simple_chain N c d rho b u _ HN Hc PU HU M2) as (t2 & T2).
  assert (VZ : forall j, j < N -> v j = ((t1, t2) * RtoC (u j))%C). { intros j Hj. apply C_ext; [etransitivity; [apply (T1 j Hj)|]|etransitivity; [apply (T2 j Hj)|]]; cbn; ring. }
  exists b, u, (t1, t2). split; [exact EL|]. split; [exact HT|]. split; [exact HU|]. split; [exact PU|]. split; [|exact VZ].
  intro Z. destruct NZ as (j & Hj & NV). apply NV. rewrite (VZ j Hj), Z. ring.
Qed.

(** ** The modes of a line of pixels *)
(** the line of m is the pixels lo, ..., lo + N - 1 of column c (normal x) or of row c (normal y) *)
Definition line_of (m : mode) (Nx Ny c lo N : nat) : Prop :=
  (md_normal m = "x"%string /\ c < Nx /\ lo + N <= Ny /\ forall i j, i < Nx -> j < Ny -> (on_line m Nx Ny i j <-> i = c /\ lo <= j < lo + N)) \/
  (md_normal m = "y"%string /\ c < Ny /\ lo + N <= Nx /\ forall i j, i < Nx -> j < Ny -> (on_line m Nx Ny i j <-> j = c /\ lo <= i < lo + N)).
(** entry of an array on pixel k of that line *)
Definition on_pixel {T} (m : mode) (c lo : nat) (a : nd T) (k : nat) : T := if String.eqb (md_normal m) "x" then nd_at a c (lo + k) else nd_at a (lo + k) c.
(** permittivity between pixel k and the one before, as the code takes it for Hz: averaged for normal y only *)
Definition between (m : mode) (N : nat) (n2 : nat -> R) (k : nat) : R := if String.eqb (md_normal m) "x" then n2 k else ((n2 (prev N k) + n2 k) / 2)%R.
(** u is a profile across the line, of propagation constant with the square beta2 *)
Definition line_mode (p : string) (omega dl L0 : R) (N : nat) (n2 nb : nat -> R) (beta2 : C) (u : nat -> C) : Prop := forall k, k < N ->
  let k2 := RtoC (omega ^ 2 * (MU_0 * L0) * (EPSILON_0 * L0)) in
  (if String.eqb p "Ez" then ((u (next N k) - u k) - (u k - u (prev N k))) / RtoC (dl ^ 2) + k2 * RtoC (n2 k) * u k
   else RtoC (n2 k) * ((u (next N k) - u k) / RtoC (nb (next N k)) - (u k - u (prev N k)) / RtoC (nb k)) / RtoC (dl ^ 2) + k2 * RtoC (n2 k) * u k)%C = (beta2 * u k)%C.

Lemma line_written e m s dest src c lo N : insert_mode e m s dest = Ok src -> line_of m (nd_nx (s_eps s)) (nd_ny (s_eps s)) c lo N -> 1 <= N ->
  nd_nx dest = nd_nx (s_eps s) -> nd_ny dest = nd_ny (s_eps s) ->
  exists (L : nd R) v, nd_size L = N /\ (if String.eqb (md_normal m) "x" then nd_nx L = 1 else nd_ny L = 1) /\ (forall k, k < N -> nd_buf L k = on_pixel m c lo (s_eps s) k) /\
    e_eigs e N (mode_matrix s L) (md_order m) (beta2 m s) = Ok v /\ (forall k, k < N -> on_pixel m c lo src k = mode_profile (md_scale m) v k) /\
    (forall e', e_eigs e' N (mode_matrix s L) (md_order m) (beta2 m s) = Ok v -> insert_mode e' m s dest = Ok src).
Proof.
  intros H HL HN SX SY. apply insert_inv in H as (i0 & i1 & j0 & j1 & v & EL & HZ & EE & EA). cbv zeta in *.
  assert (AG : forall e', e_eigs e' (nd_size (nd_slice (s_eps s) i0 i1 j0 j1)) (mode_matrix s (nd_slice (s_eps s) i0 i1 j0 j1)) (md_order m) (beta2 m s) = Ok v -> insert_mode e' m s dest = Ok src).
  { intros e' Q. unfold insert_mode. rewrite EL. cbv zeta. rewrite (proj2 (Nat.eqb_neq _ _) HZ). unfold beta2 in Q. rewrite Q. exact EA. }
  set (Nx := nd_nx (s_eps s)) in *. set (Ny := nd_ny (s_eps s)) in *.
  assert (BX := slice_bound_le Nx i0). assert (BX' := slice_bound_le Nx i1). assert (BY := slice_bound_le Ny j0). assert (BY' := slice_bound_le Ny j1).
  set (L := nd_slice (s_eps s) i0 i1 j0 j1) in *. exists L, v. unfold on_pixel.
  destruct HL as [(HX & Hc & Hw & HO)|(HX & Hc & Hw & HO)]; rewrite HX in *.
  - change (String.eqb "x" "x") with true in *. cbv iota in *.
    assert (O : forall i j, i < Nx -> j < Ny -> (slice_bound Nx i0 <= i < slice_bound Nx i1 /\ slice_bound Ny j0 <= j < slice_bound Ny j1) <-> i = c /\ lo <= j < lo + N).
    { intros i j Hi Hj. rewrite <- (HO i j Hi Hj). rewrite <- !in_slice_bounds. unfold line_inds in EL. change (String.eqb "x" "x") with true in EL. injection EL as <- <- <- <-.
      unfold on_line. destruct (md_center m) as [c0 c1]. cbn [fst snd]. split; [intros [A B]; left; auto|]. intros [(_ & A & B)|(A & _)]; [auto|]. rewrite HX in A. discriminate. }
    assert (P1 := proj2 (O c lo Hc ltac:(lia)) ltac:(lia)). assert (P2 := proj2 (O c (lo + N - 1) Hc ltac:(lia)) ltac:(lia)).
    assert (Y0 : slice_bound Ny j0 = lo). { assert (K := proj1 (O c (slice_bound Ny j0) ltac:(lia) ltac:(lia))). lia. }
    assert (Y1 : slice_bound Ny j1 = lo + N). { assert (K := proj1 (O c (slice_bound Ny j1 - 1) ltac:(lia) ltac:(lia))). lia. }
    assert (X0 : slice_bound Nx i0 = c). { assert (K := proj1 (O (slice_bound Nx i0) lo ltac:(lia) ltac:(lia))). lia. }
    assert (X1 : slice_bound Nx i1 = S c). { assert (K := proj1 (O (slice_bound Nx i1 - 1) lo ltac:(lia) ltac:(lia))). lia. }
    assert (LX : nd_nx L = 1). { unfold L, nd_slice. cbn [nd_nx nd_ny]. fold Nx Ny. rewrite X0, X1. lia. }
    assert (LS : nd_size L = N). { unfold L, nd_size, nd_slice. cbn [nd_nx nd_ny]. fold Nx Ny. rewrite X0, X1, Y0, Y1. lia. }
    split; [exact LS|]. split; [exact LX|]. split.
    { intros j Hj. unfold L, nd_slice. cbn [nd_buf]. fold Nx Ny. rewrite X0, Y0, Y1. replace (lo + N - lo) with N by lia. rewrite Nat.div_small, Nat.mod_small by exact Hj. f_equal; lia. }
    split; [rewrite <- LS; exact EE|]. split; [|rewrite <- LS; exact AG]. intros k Hk.
    assert (D := assign_at _ _ _ _ _ _ _ c (lo + k) EA). rewrite SX, SY in D. destruct (D ltac:(lia)) as (_ & _ & A1 & _). rewrite !in_slice_bounds, O in A1 by lia.
    rewrite (A1 ltac:(lia)). cbn [nd_nx nd_ny]. rewrite LS, Y0. replace (lo + k - lo) with k by lia. unfold bidx. cbn [Nat.eqb]. destruct (Nat.eqb_spec N 1); unfold nd_at; cbn [nd_buf nd_ny]; f_equal; lia.
  - change (String.eqb "y" "x") with false in *. cbv iota in *.
    assert (O : forall i j, i < Nx -> j < Ny -> (slice_bound Nx i0 <= i < slice_bound Nx i1 /\ slice_bound Ny j0 <= j < slice_bound Ny j1) <-> j = c /\ lo <= i < lo + N).
    { intros i j Hi Hj. rewrite <- (HO i j Hi Hj). rewrite <- !in_slice_bounds. unfold line_inds in EL. change (String.eqb "y" "x") with false in EL. change (String.eqb "y" "y") with true in EL. injection EL as <- <- <- <-.
      unfold on_line. destruct (md_center m) as [c0 c1]. cbn [fst snd]. split; [intros [A B]; right; auto|]. intros [(A & _)|(_ & A & B)]; [|auto]. rewrite HX in A. discriminate. }
    assert (P1 := proj2 (O lo c ltac:(lia) Hc) ltac:(lia)). assert (P2 := proj2 (O (lo + N - 1) c ltac:(lia) Hc) ltac:(lia)).
    assert (X0 : slice_bound Nx i0 = lo). { assert (K := proj1 (O (slice_bound Nx i0) c ltac:(lia) ltac:(lia))). lia. }
    assert (X1 : slice_bound Nx i1 = lo + N). { assert (K := proj1 (O (slice_bound Nx i1 - 1) c ltac:(lia) ltac:(lia))). lia. }
    assert (Y0 : slice_bound Ny j0 = c). { assert (K := proj1 (O lo (slice_bound Ny j0) ltac:(lia) ltac:(lia))). lia. }
    assert (Y1 : slice_bound Ny j1 = S c). { assert (K := proj1 (O lo (slice_bound Ny j1 - 1) ltac:(lia) ltac:(lia))). lia. }
    assert (LY : nd_ny L = 1). { unfold L, nd_slice. cbn [nd_nx nd_ny]. fold Nx Ny. rewrite Y0, Y1. lia. }
    assert (LS : nd_size L = N). { unfold L, nd_size, nd_slice. cbn [nd_nx nd_ny]. fold Nx Ny. rewrite X0, X1, Y0, Y1. lia. }
    split; [exact LS|]. split; [exact LY|]. split.
    { intros i Hi. unfold L, nd_slice. cbn [nd_buf]. fold Nx Ny. rewrite X0, Y0, Y1. replace (S c - c) with 1 by lia. rewrite Nat.div_1_r, Nat.mod_1_r. f_equal; lia. }
    split; [rewrite <- LS; exact EE|]. split; [|rewrite <- LS; exact AG]. intros k Hk.
    assert (D := assign_at _ _ _ _ _ _ _ (lo + k) c EA). rewrite SX, SY in D. destruct (D ltac:(lia)) as (_ & _ & A1 & _). rewrite !in_slice_bounds, O in A1 by lia.
    rewrite (A1 ltac:(lia)). cbn [nd_nx nd_ny]. rewrite LS, X0. replace (lo + k - lo) with k by lia. unfold bidx. cbn [Nat.eqb]. destruct (Nat.eqb_spec N 1); unfold nd_at; cbn [nd_buf nd_ny]; f_equal; lia.
Qed.

(** the matrix of the line *)
Lemma line_D dl N sd w k : dl <> 0%R -> k < N -> mv N (createDws AxX sd dl 1 N 1) w k = ax sd dl N w k.
Proof.
  intros Hd Hk. assert (F := Dx_form sd dl 1%R N 1 w k 0 Hk ltac:(lia)). rewrite !Nat.mul_1_r, !Nat.add_0_r in F. rewrite F.
  rewrite <- (ax_form sd dl N w k Hd Hk). apply csum_ext. intros c Hc. do 2 f_equal. lia.
Qed.
Lemma line_average (L : nd R) m N k : nd_size L = N -> (if String.eqb (md_normal m) "x" then nd_nx L = 1 else nd_ny L = 1) -> k < N ->
  grid_average AxX (nd_nx L) (nd_ny L) (cvec (nd_buf L)) k = RtoC (between m N (nd_buf L) k).
Proof.
  intros LS LX Hk. unfold grid_average, roll1, between, cvec. unfold nd_size in LS. destruct (String.eqb (md_normal m) "x").
  - rewrite LX in *. assert (EN : nd_ny L = N) by lia. rewrite EN. rewrite (Nat.div_small k N), (Nat.mod_small k N) by lia.
    change ((0 + 1 - 1) mod 1 * N + k) with k. apply C_ext; cbn; field.
  - rewrite LX in *. assert (EN : nd_nx L = N) by lia. rewrite EN. rewrite Nat.div_1_r, Nat.mod_1_r, Nat.mul_1_r, Nat.add_0_r.
    assert (E : (k + N - 1) mod N = prev N k). { destruct k; cbn [prev]; [rewrite Nat.mod_small by lia; reflexivity|]. replace (S k + N - 1) with (k + 1 * N) by lia. rewrite Nat.mod_add, Nat.mod_small by lia. reflexivity. }
    rewrite E. apply C_ext; cbn; field.
Qed.
Lemma line_matrix s (L : nd R) m N v k : 2 <= N -> (0 < s_dl s)%R -> (0 < s_L0 s)%R -> nd_size L = N -> (if String.eqb (md_normal m) "x" then nd_nx L = 1 else nd_ny L = 1) ->
  (forall j, j < N -> (0 < nd_buf L j)%R) -> k < N ->
  mv N (mode_matrix s L) v k =
  (match s_pol s with
   | PolEz => ((v (next N k) - v k) - (v k - v (prev N k))) / RtoC (s_dl s ^ 2)
   | PolHz => RtoC (nd_buf L k) * ((v (next N k) - v k) / RtoC (between m N (nd_buf L) (next N k)) - (v k - v (prev N k)) / RtoC (between m N (nd_buf L) k)) / RtoC (s_dl s ^ 2)
   end + RtoC (s_omega s ^ 2 * (MU_0 * s_L0 s) * (EPSILON_0 * s_L0 s)) * RtoC (nd_buf L k) * v k)%C.
Proof.
  intros HN Hd HL LS LX HP Hk. assert (D0 : s_dl s <> 0%R) by lra. assert (DN : RtoC (s_dl s) <> RtoC 0) by (apply RtoC_neq0; exact D0).
  assert (D2 : RtoC (s_dl s ^ 2) = (RtoC (s_dl s) * RtoC (s_dl s))%C) by (rewrite <- RtoC_mult; f_equal; ring).
  assert (HE : (0 < EPSILON_0 * s_L0 s)%R) by (apply Rmult_lt_0_compat; [unfold EPSILON_0; lra|exact HL]). set (EPS := (EPSILON_0 * s_L0 s)%R) in *. set (MU := (MU_0 * s_L0 s)%R).
  unfold mode_matrix. rewrite LS. cbv zeta. fold EPS MU. destruct (s_pol s); rewrite mv_mplus, mv_mscal; change (spdiags ?f) with (mdiag f); rewrite mv_diag by exact Hk.
  - rewrite mv_mm, line_D by assumption. rewrite (ax_ext Fwd (s_dl s) N _ (ax Bwd (s_dl s) N v) k Hk) by (intros j Hj; apply line_D; assumption).
    unfold ax. rewrite (proj2 (Nat.ltb_lt 1 N)) by lia. rewrite prev_next by exact Hk. rewrite D2, !RtoC_mult. field. exact DN.
  - rewrite !mv_mm. change (spdiags ?f) with (mdiag f). rewrite mv_diag by exact Hk. rewrite line_D by assumption.
    set (nb := between m N (nd_buf L)).
    assert (NB : forall j, j < N -> (0 < nb j)%R). { intros j Hj. unfold nb, between. destruct (String.eqb (md_normal m) "x"); [apply HP; exact Hj|]. assert (A := HP j Hj). assert (B := HP _ (prev_lt N j Hj)). lra. }
    rewrite (ax_ext Fwd (s_dl s) N _ (fun j => / (RtoC EPS * RtoC (nb j)) * ax Bwd (s_dl s) N v j)%C k Hk).
    2:{ intros j Hj. rewrite mv_diag by exact Hj. rewrite line_D by assumption. rewrite (line_average L m N j LS LX Hj). reflexivity. }
    unfold ax. rewrite (proj2 (Nat.ltb_lt 1 N)) by lia. rewrite prev_next by exact Hk. rewrite D2, !RtoC_mult.
    assert (N1 : RtoC (nb k) <> RtoC 0) by (apply RtoC_neq0; assert (Q := NB k Hk); lra). assert (N2 : RtoC (nb (next N k)) <> RtoC 0) by (apply RtoC_neq0; assert (Q := NB _ (next_lt N k Hk)); lra).
    assert (N3 : RtoC EPS <> RtoC 0) by (apply RtoC_neq0; lra). field. repeat split; assumption.
Qed.

(** u > 0 is the fundamental mode of the line: every mode has a real squared propagation constant, at most b, and those of b are multiples of u *)
Definition fundamental (p : string) (omega dl L0 : R) (N : nat) (n2 nb : nat -> R) (b : R) (u : nat -> R) : Prop :=
  (forall k, k < N -> (0 < u k)%R) /\ line_mode p omega dl L0 N n2 nb (RtoC b) (fun k => RtoC (u k)) /\
  forall mu w, line_mode p omega dl L0 N n2 nb mu w -> (exists k, k < N /\ w k <> RtoC 0) ->
    exists x, mu = RtoC x /\ (x <= b)%R /\ (x = b -> exists z : C, forall k, k < N -> w k = (z * RtoC (u k))%C).

(** ** Lines as chains *)
Definition K2 (omega L0 : R) : R := (omega ^ 2 * (MU_0 * L0) * (EPSILON_0 * L0))%R.
Definition c_of (p : string) (dl : R) (nb : nat -> R) (k : nat) : R := (if String.eqb p "Ez" then / dl ^ 2 else / (nb k * dl ^ 2))%R.
Definition d_of (p : string) (k2 : R) (n2 : nat -> R) (k : nat) : R := (if String.eqb p "Ez" then k2 * n2 k else k2)%R.
Definition r_of (p : string) (n2 : nat -> R) (k : nat) : R := (if String.eqb p "Ez" then 1 else / n2 k)%R.
Lemma K2_ge0 omega L0 : (0 <= K2 omega L0)%R.
Proof.
  unfold K2. replace (omega ^ 2 * (MU_0 * L0) * (EPSILON_0 * L0))%R with (MU_0 * EPSILON_0 * (omega * L0) ^ 2)%R by ring.
  apply Rmult_le_pos; [apply Rmult_le_pos; unfold MU_0, EPSILON_0; try lra|apply pow2_ge_0].
Qed.
Lemma c_of_pos p dl nb N : (0 < dl)%R -> (forall k, k < N -> (0 < nb k)%R) -> forall k, k < N -> (0 < c_of p dl nb k)%R.
Proof.
  intros Hd HB k Hk. assert (D2 : (0 < dl ^ 2)%R) by (apply pow_lt; exact Hd). unfold c_of. destruct (String.eqb p "Ez"); apply Rinv_0_lt_compat; [exact D2|]. apply Rmult_lt_0_compat; [apply HB; exact Hk|exact D2].
Qed.
Lemma r_of_pos p n2 N : (forall k, k < N -> (0 < n2 k)%R) -> forall k, k < N -> (0 < r_of p n2 k)%R.
Proof. intros HP k Hk. unfold r_of. destruct (String.eqb p "Ez"); [lra|]. apply Rinv_0_lt_compat, HP, Hk. Qed.
Lemma d_of_le p k2 n2 N M : (0 <= k2)%R -> (forall k, k < N -> (0 < n2 k <= M)%R) -> forall k, k < N -> (d_of p k2 n2 k <= k2 * M * r_of p n2 k)%R.
Proof.
  intros H0 HM k Hk. destruct (HM k Hk) as [A B]. unfold d_of, r_of. destruct (String.eqb p "Ez"); [rewrite Rmult_1_r; apply Rmult_le_compat_l; assumption|].
  rewrite Rmult_assoc. rewrite <- (Rmult_1_r k2) at 1. apply Rmult_le_compat_l; [exact H0|]. apply (Rmult_le_reg_r (n2 k)); [exact A|]. rewrite Rmult_assoc, Rinv_l by lra. lra.
Qed.
Lemma chain_C N c d (v : vec) j : (chain N c d (fun k => Re (v k)) j, chain N c d (fun k => Im (v k)) j) = (RtoC (d j) * v j + RtoC (c (next N j)) * (v (next N j) - v j) - RtoC (c j) * (v j - v (prev N j)))%C.
Proof. unfold chain. destruct (v j), (v (next N j)), (v (prev N j)). apply C_ext; cbn; ring. Qed.
Lemma line_chain p omega dl L0 N n2 nb b v : (0 < dl)%R -> (forall k, k < N -> (0 < n2 k)%R) -> (forall k, k < N -> (0 < nb k)%R) ->
  line_mode p omega dl L0 N n2 nb b v <-> chain_eig N (c_of p dl nb) (d_of p (K2 omega L0) n2) (r_of p n2) b v.
Proof.
  intros Hd HP HB. unfold line_mode, chain_eig. assert (D2 : (0 < dl ^ 2)%R) by (apply pow_lt; exact Hd). assert (DN : RtoC (dl ^ 2) <> RtoC 0) by (apply RtoC_neq0; lra).
  assert (G : forall k, k < N -> let k2 := RtoC (K2 omega L0) in
    (if String.eqb p "Ez" then ((v (next N k) - v k) - (v k - v (prev N k))) / RtoC (dl ^ 2) + k2 * RtoC (n2 k) * v k
     else RtoC (n2 k) * ((v (next N k) - v k) / RtoC (nb (next N k)) - (v k - v (prev N k)) / RtoC (nb k)) / RtoC (dl ^ 2) + k2 * RtoC (n2 k) * v k)%C =
    (RtoC (/ r_of p n2 k) * (chain N (c_of p dl nb) (d_of p (K2 omega L0) n2) (fun k => Re (v k)) k, chain N (c_of p dl nb) (d_of p (K2 omega L0) n2) (fun k => Im (v k)) k))%C).
  { intros k Hk. cbv zeta. rewrite chain_C. unfold r_of, c_of, d_of. destruct (String.eqb p "Ez").
    - rewrite Rinv_1, RtoC_mult, RtoC_inv by lra. field. exact DN.
    - assert (N0 := HP k Hk). assert (N1 := HB k Hk). assert (N2 := HB _ (next_lt N k Hk)).
      rewrite Rinv_inv. rewrite !RtoC_inv by (apply Rgt_not_eq, Rmult_lt_0_compat; assumption). rewrite !RtoC_mult.
      assert (M1 : RtoC (nb k) <> RtoC 0) by (apply RtoC_neq0; lra). assert (M2 : RtoC (nb (next N k)) <> RtoC 0) by (apply RtoC_neq0; lra). field. repeat split; assumption. }
  split; intros H k Hk; specialize (H k Hk); specialize (G k Hk); cbv zeta in *; fold (K2 omega L0) in *; assert (RP := r_of_pos p n2 N HP k Hk).
  - rewrite G in H. match type of H with (_ * ?X)%C = _ => set (Y := X : C) in * end. transitivity (RtoC (r_of p n2 k) * (RtoC (/ r_of p n2 k) * Y))%C; [rewrite Cmult_assoc, <- RtoC_mult, Rinv_r by lra; symmetry; apply Cmult_1_l|]. rewrite H, Cmult_assoc, (Cmult_comm (RtoC _)). reflexivity.
  - rewrite G, H. rewrite (Cmult_comm b), <- !Cmult_assoc, (Cmult_assoc (RtoC (/ _))), <- RtoC_mult, Rinv_l by lra. ring.
Qed.
Lemma line_mode_ext p omega dl L0 N n2 n2' nb nb' b v : (forall k, k < N -> n2 k = n2' k) -> (forall k, k < N -> nb k = nb' k) ->
  line_mode p omega dl L0 N n2 nb b v -> line_mode p omega dl L0 N n2' nb' b v.
Proof. intros E1 E2 H k Hk. specialize (H k Hk). cbv zeta in *. rewrite (E1 k Hk), (E2 k Hk), (E2 _ (next_lt N k Hk)) in H. exact H. Qed.
Lemma between_ext m N n2 n2' : (forall k, k < N -> n2 k = n2' k) -> forall k, k < N -> between m N n2 k = between m N n2' k.
Proof. intros E k Hk. unfold between. rewrite (E k Hk), (E _ (prev_lt N k Hk)). reflexivity. Qed.
Lemma between_pos m N n2 : (forall k, k < N -> (0 < n2 k)%R) -> forall k, k < N -> (0 < between m N n2 k)%R.
Proof. intros HP k Hk. unfold between. destruct (String.eqb (md_normal m) "x"); [apply HP, Hk|]. assert (A := HP k Hk). assert (B := HP _ (prev_lt N k Hk)). lra. Qed.
Lemma pol_slot omega eps dl np p L0 s : Simulation omega eps dl np p L0 = Ok s -> s_pol s = (if String.eqb p "Ez" then PolEz else PolHz) /\ (0 < L0)%R /\ (0 < omega)%R.
Proof.
  unfold Simulation, check_inputs. destruct (Rlt_dec 0 L0); [|discriminate]. destruct (Rlt_dec 0 omega); [|discriminate]. cbn [andb].
  destruct np as [[|a [|b [|]]]|]; try discriminate. destruct (Z.leb 0 a && Z.leb 0 b)%bool; [|discriminate]. destruct (_ || _)%bool; [|discriminate].
  intro E. injection E as <-. split; [|split; assumption]. cbn. destruct (String.eqb p "Ez"); reflexivity.
Qed.
Lemma matrix_mode omega eps dl np p L0 s m (L : nd R) N n2 lm v : Simulation omega eps dl np p L0 = Ok s -> (0 < dl)%R -> 2 <= N -> nd_size L = N ->
  (if String.eqb (md_normal m) "x" then nd_nx L = 1 else nd_ny L = 1) -> (forall k, k < N -> nd_buf L k = n2 k) -> (forall k, k < N -> (0 < n2 k)%R) ->
  (forall k, k < N -> mv N (mode_matrix s L) v k = (lm * v k)%C) <-> line_mode p omega dl L0 N n2 (between m N n2) lm v.
Proof.
  intros HS Hd HN LS LX LB HP. destruct (fresh_slots _ _ _ _ _ _ _ HS) as (_ & _ & _ & _ & _ & _ & SO & SL & SD & _). destruct (pol_slot _ _ _ _ _ _ _ HS) as (SP & L0p & _).
  assert (LP : forall j, j < N -> (0 < nd_buf L j)%R) by (intros j Hj; rewrite (LB j Hj); apply HP; exact Hj).
  assert (LM := fun k => line_matrix s L m N v k HN ltac:(rewrite SD; exact Hd) ltac:(rewrite SL; exact L0p) LS LX LP). rewrite SP, SO, SL, SD in LM.
  assert (Q : (forall k, k < N -> mv N (mode_matrix s L) v k = (lm * v k)%C) <-> line_mode p omega dl L0 N (nd_buf L) (between m N (nd_buf L)) lm v).
  { split; intros H k Hk; specialize (H k Hk); [rewrite (LM k Hk) in H; cbv zeta; destruct (String.eqb p "Ez"); exact H|rewrite (LM k Hk); cbv zeta in H; destruct (String.eqb p "Ez"); exact H]. }
  rewrite Q. split; apply line_mode_ext; try (apply between_ext); intros k Hk; (apply LB || (symmetry; apply LB)); exact Hk.
Qed.

(** a positive mode of the largest b is fundamental *)
Lemma top_fundamental p omega dl L0 N n2 nb b u : 2 <= N -> (0 < dl)%R -> (forall k, k < N -> (0 < n2 k)%R) -> (forall k, k < N -> (0 < nb k)%R) ->
  top_of N (c_of p dl nb) (d_of p (K2 omega L0) n2) (r_of p n2) b -> chain_mode N (c_of p dl nb) (d_of p (K2 omega L0) n2) (r_of p n2) b u -> (forall k, k < N -> (0 < u k)%R) ->
  fundamental p omega dl L0 N n2 nb b u.
Proof.
  intros HN Hd HP HB HT HU PU. assert (Hc := c_of_pos p dl nb N Hd HB). assert (Hr := r_of_pos p n2 N HP). set (c := c_of p dl nb) in *. set (d := d_of p (K2 omega L0) n2) in *. set (r := r_of p n2) in *.
  split; [exact PU|]. split.
  { apply line_chain; try assumption. intros j Hj. cbn [Re Im RtoC fst snd]. change (chain N (c_of p dl nb) (d_of p (K2 omega L0) n2) (fun k => u k) j) with (chain N c d u j). rewrite (HU j Hj).
    assert (Z : chain N (c_of p dl nb) (d_of p (K2 omega L0) n2) (fun _ => 0%R) j = 0%R) by (unfold chain; ring). rewrite Z. apply C_ext; cbn; fold r; ring. }
  intros mu w HW NZ. apply line_chain in HW; try assumption. fold c d r in HW. destruct (chain_eig_real N c d r mu w Hr HW NZ) as (I0 & M1 & M2). exists (Re mu).
  split; [apply C_ext; [reflexivity|exact I0]|].
  assert (LE : (Re mu <= b)%R).
  { assert (G : forall x, chain_mode N c d r (Re mu) x -> (exists j, j < N /\ x j <> 0%R) -> (Re mu <= b)%R).
    { intros x MX (j & Hj & NX). assert (P : (0 < wsq N r x)%R).
      { apply Rlt_le_trans with (r j * x j ^ 2)%R; [apply Rmult_lt_0_compat; [apply Hr; exact Hj|apply pow2_gt_0; exact NX]|].
        apply (rsum_term_le N (fun j => r j * x j ^ 2)%R j); [|exact Hj]. intros k Hk. apply Rmult_le_pos; [apply Rlt_le, Hr; exact Hk|apply pow2_ge_0]. }
      assert (Q := HT x). rewrite (bil_mode N c d r (Re mu) x x MX) in Q.
      assert (E : rsum N (fun j => r j * (x j * x j))%R = wsq N r x) by (apply rsum_ext; intros; ring). rewrite E in Q. apply (Rmult_le_reg_r (wsq N r x)); assumption. }
    destruct NZ as (j & Hj & NV). destruct (Req_dec (Re (w j)) 0) as [Z|NR]; [|apply (G _ M1); eauto].
    apply (G _ M2). exists j. split; [exact Hj|]. intro Z2. apply NV. apply C_ext; assumption. }
  split; [exact LE|]. intro EB. rewrite EB in M1, M2.
  destruct (positive_simple_chain N c d r b u _ ltac:(lia) Hc PU HU M1) as (t1 & T1). destruct (positive_simple_chain N c d r b u _ ltac:(lia) Hc PU HU M2) as (t2 & T2).
  exists (t1, t2). intros k Hk. apply C_ext; [etransitivity; [apply (T1 k Hk)|]|etransitivity; [apply (T2 k Hk)|]]; cbn; ring.
Qed.

(** ** C118 *)
(** Every cross-section has a fundamental mode, and its propagation constant lies between those of the mean and of the largest permittivity. *)
Theorem C118_fundamental_exists : forall p omega dl L0 N n2 nb M, 2 <= N -> (0 < dl)%R -> (forall k, k < N -> (0 < n2 k <= M)%R) -> (forall k, k < N -> (0 < nb k)%R) ->
  let k2 := (omega ^ 2 * (MU_0 * L0) * (EPSILON_0 * L0))%R in
  exists b u, fundamental p omega dl L0 N n2 nb b u /\ (b <= k2 * M)%R /\
    (if String.eqb p "Ez" then (k2 * rsum N n2 <= b * INR N)%R else (k2 * INR N <= b * rsum N (fun k => / n2 k))%R).
Proof.
  intros p omega dl L0 N n2 nb M HN Hd HM HB. cbv zeta. fold (K2 omega L0). assert (HP : forall k, k < N -> (0 < n2 k)%R) by (intros k Hk; apply HM; exact Hk).
  assert (Hc := c_of_pos p dl nb N Hd HB). assert (Hr := r_of_pos p n2 N HP).
  destruct (top_mode N (c_of p dl nb) (d_of p (K2 omega L0) n2) (r_of p n2) (K2 omega L0 * M) ltac:(lia) (fun j Hj => Rlt_le _ _ (Hc j Hj)) Hr (d_of_le p _ n2 N M (K2_ge0 omega L0) HM)) as (b & u0 & HT & HU0 & NZ0 & LB).
  destruct (top_abs N _ _ _ b u0 ltac:(lia) Hc HT HU0 NZ0) as (HU & PU). exists b, (fun j => Rabs (u0 j)).
  split; [apply top_fundamental; assumption|]. split; [exact LB|]. assert (Q := HT (fun _ => 1%R)). unfold bil, wsq in Q.
  rewrite (rsum_0 N (fun j => c_of p dl nb j * ((1 - 1) * (1 - 1)))%R) in Q by (intros; ring). unfold d_of, r_of in Q. destruct (String.eqb p "Ez").
  - rewrite (rsum_ext N (fun j => 1 * 1 ^ 2)%R (fun _ => 1%R)) in Q by (intros; ring). rewrite rsum_const in Q. rewrite (rsum_ext N (fun j => K2 omega L0 * n2 j * (1 * 1))%R (fun j => K2 omega L0 * n2 j)%R) in Q by (intros; ring). rewrite rsum_scal in Q. lra.
  - rewrite (rsum_ext N (fun j => / n2 j * 1 ^ 2)%R (fun j => / n2 j)%R) in Q by (intros; ring). rewrite (rsum_ext N (fun j => K2 omega L0 * (1 * 1))%R (fun _ => K2 omega L0)) in Q by (intros; ring). rewrite rsum_const in Q. lra.
Qed.

(** the eigensolver at k = 1 returns a unit eigenvector of an eigenvalue nearest to the guess (scipy, sigma, which='LM') *)
Definition eigs_nearest (e : env) (lam : nat -> mat -> nat -> R -> C) : Prop :=
  eigs_correct e lam /\ forall N A r v, e_eigs e N A 1 r = Ok v -> forall mu w, (exists k, k < N /\ w k <> RtoC 0) -> (forall k, k < N -> mv N A w k = (mu * w k)%C) ->
    (Cmod (lam N A 1%nat r - RtoC r)%C <= Cmod (mu - RtoC r)%C)%R.
Lemma beta2_K2 m s omega L0 : s_omega s = omega -> s_L0 s = L0 -> (0 < L0)%R -> beta2 m s = (K2 omega L0 * md_neff m ^ 2)%R.
Proof.
  intros EO EL HL. unfold beta2, K2. rewrite EO, EL. rewrite !Rpow_mult_distr. rewrite <- (Rsqr_pow2 (sqrt _)), Rsqr_sqrt; [ring|].
  replace (MU_0 * L0 * (EPSILON_0 * L0))%R with (MU_0 * EPSILON_0 * L0 ^ 2)%R by ring. apply Rmult_le_pos; [|apply pow2_ge_0]. apply Rmult_le_pos; unfold MU_0, EPSILON_0; lra.
Qed.
Lemma unit_nonzero N v : rsum N (fun k => Cmod (v k) ^ 2)%R = 1%R -> exists k, k < N /\ v k <> RtoC 0.
Proof.
  intro H. apply NNPP. intro K. assert (Z : rsum N (fun k => Cmod (v k) ^ 2)%R = 0%R); [|lra]. apply rsum_0. intros k Hk.
  assert (E : v k = RtoC 0) by (apply NNPP; intro X; apply K; eauto). rewrite E, Cmod_0. ring.
Qed.
Lemma fundamental_vector e lam omega eps dl np p L0 s m c lo N src : eigs_nearest e lam -> Simulation omega eps dl np p L0 = Ok s -> (0 < dl)%R ->
  line_of m (nd_nx eps) (nd_ny eps) c lo N -> 2 <= N -> (forall k, k < N -> (0 < on_pixel m c lo eps k <= md_neff m ^ 2)%R) -> md_order m = 1 ->
  insert_mode e m s (s_src s) = Ok src ->
  exists L v b u z, nd_size L = N /\ e_eigs e N (mode_matrix s L) 1 (beta2 m s) = Ok v /\ (forall k, k < N -> on_pixel m c lo src k = mode_profile (md_scale m) v k) /\
    fundamental p omega dl L0 N (on_pixel m c lo eps) (between m N (on_pixel m c lo eps)) b u /\ z <> RtoC 0 /\ (forall k, k < N -> v k = (z * RtoC (u k))%C) /\
    (forall e', e_eigs e' N (mode_matrix s L) 1 (beta2 m s) = Ok v -> insert_mode e' m s (s_src s) = Ok src).
Proof.
  intros (HE & HNr) HS Hd HL HN HM HO HI. destruct (fresh_slots _ _ _ _ _ _ _ HS) as (SX & SY & _ & SE & _ & _ & SO & SL & SD & _). destruct (pol_slot _ _ _ _ _ _ _ HS) as (SP & L0p & _).
  destruct (line_written e m s (s_src s) src c lo N HI) as (L & v & LS & LX & LB & EE & WR & AG); rewrite ?SE; try assumption; try lia. rewrite SE in LB. rewrite HO in EE, AG.
  set (n2 := on_pixel m c lo eps) in *. assert (HP : forall k, k < N -> (0 < n2 k)%R) by (intros k Hk; apply HM; exact Hk). assert (HB := between_pos m N n2 HP). set (nb := between m N n2) in *.
  assert (MM := fun lm w => matrix_mode omega eps dl np p L0 s m L N n2 lm w HS Hd HN LS LX LB HP). fold nb in MM.
  destruct (HE _ _ _ _ _ EE) as (EV & UN). set (lm := lam N (mode_matrix s L) 1 (beta2 m s)) in *.
  destruct (nearest_is_top N (c_of p dl nb) (d_of p (K2 omega L0) n2) (r_of p n2) (K2 omega L0 * md_neff m ^ 2) (beta2 m s) lm v) as (b & u & z & EL & HT & HU & PU & Hz & HV).
  - lia.
  - apply c_of_pos; assumption.
  - apply r_of_pos; assumption.
  - apply d_of_le; [apply K2_ge0|exact HM].
  - right. symmetry. apply beta2_K2; assumption.
  - apply line_chain; try assumption. apply MM. exact EV.
  - apply unit_nonzero, UN.
  - intros mu w HW NW. apply (HNr _ _ _ _ EE mu w NW). apply MM. apply line_chain; assumption.
  - exists L, v, b, u, z. split; [exact LS|]. split; [exact EE|]. split; [exact WR|]. split; [apply top_fundamental; assumption|]. split; [exact Hz|]. split; assumption.
Qed.

(** With order 1 and a guess of the effective index at or above every index on the line, what is written on the line is the fundamental
    mode times a real factor, and this factor is zero only if the eigenvector that came back was purely imaginary or the scale is 0. *)
Theorem C118_fundamental : forall e lam omega eps dl np p L0 s m c lo N src,
  eigs_nearest e lam -> Simulation omega eps dl np p L0 = Ok s -> (0 < dl)%R ->
  line_of m (nd_nx eps) (nd_ny eps) c lo N -> 2 <= N -> (forall k, k < N -> (0 < on_pixel m c lo eps k <= md_neff m ^ 2)%R) -> md_order m = 1 ->
  insert_mode e m s (s_src s) = Ok src ->
  exists b u q, fundamental p omega dl L0 N (on_pixel m c lo eps) (between m N (on_pixel m c lo eps)) b u /\
    (forall k, k < N -> on_pixel m c lo src k = RtoC (q * u k)) /\
    (md_scale m <> 0%R -> (forall A r v, e_eigs e N A 1 r = Ok v -> exists k, k < N /\ Re (v k) <> 0%R) -> q <> 0%R).
Proof.
  intros e lam omega eps dl np p L0 s m c lo N src HE HS Hd HL HN HM HO HI.
  destruct (fundamental_vector _ _ _ _ _ _ _ _ _ _ _ _ _ _ HE HS Hd HL HN HM HO HI) as (L & v & b & u & z & LS & EE & WR & FU & Hz & HV & _).
  destruct (profile_multiple (md_scale m) N v z u HV) as (q & HQ). exists b, u, q. split; [exact FU|]. split; [intros k Hk; rewrite (WR k Hk); apply HQ; exact Hk|].
  intros Hs HR Q0. destruct (HR _ _ _ EE) as (k & Hk & RK). assert (Q := HQ k Hk). rewrite Q0, Rmult_0_l in Q. unfold mode_profile in Q. apply (f_equal Re) in Q. cbn [Re RtoC fst] in Q.
  assert (X : Re (v k * RtoC (md_scale m))%C <> 0%R). { replace (Re (v k * RtoC (md_scale m))%C) with (Re (v k) * md_scale m)%R by (destruct (v k); cbn; ring). apply Rmult_integral_contrapositive_currified; assumption. }
  apply Rmult_integral in Q as [Q|Q]; [apply Cmod_eq_0 in Q; rewrite Q in X; apply X; reflexivity|]. unfold np_sign in Q. destruct (Rlt_dec _ 0); [lra|]. destruct (Rlt_dec 0 _); lra.
Qed.

(** ... and so it is after setup_modes of a simulation with this one mode. *)
Theorem C118_set_up : forall e lam omega eps dl np p L0 s m c lo N s1,
  eigs_nearest e lam -> Simulation omega eps dl np p L0 = Ok s -> (0 < dl)%R ->
  line_of m (nd_nx eps) (nd_ny eps) c lo N -> 2 <= N -> (forall k, k < N -> (0 < on_pixel m c lo eps k <= md_neff m ^ 2)%R) -> md_order m = 1 ->
  setup_modes e (fst (add_mode m s)) = (s1, Ok tt) ->
  exists b u q, fundamental p omega dl L0 N (on_pixel m c lo eps) (between m N (on_pixel m c lo eps)) b u /\
    (forall k, k < N -> on_pixel m c lo (s_src s1) k = RtoC (q * u k)) /\
    (forall i j, i < nd_nx eps -> j < nd_ny eps -> ~ on_line m (nd_nx eps) (nd_ny eps) i j -> nd_at (s_src s1) i j = RtoC 0) /\
    (md_scale m <> 0%R -> (forall A r v, e_eigs e N A 1 r = Ok v -> exists k, k < N /\ Re (v k) <> 0%R) -> q <> 0%R).
Proof.
  intros e lam omega eps dl np p L0 s m c lo N s1 HE HS Hd HL HN HM HO HU. destruct (fresh_slots _ _ _ _ _ _ _ HS) as (SX & SY & S0 & SE & SNx & SNy & SO & SL & SD & MD).
  assert (SU : setup_src e m (upd_modes [m] s) = (s1, Ok tt)).
  { unfold add_mode, modS in HU. cbn [fst] in HU. unfold setup_modes in HU. rewrite MD in HU. cbn [app] in HU.
    change (s_modes (upd_modes [m] s)) with [m] in HU. cbn [setup_list] in HU. unfold bind in HU. destruct (setup_src e m (upd_modes [m] s)) as [s3 [[]|x]]; [|discriminate]. exact HU. }
  unfold setup_src in SU. destruct (compute_normalization e m (upd_modes [m] s)) as [W|]; [|discriminate]. cbv zeta in SU.
  change (s_src (upd_W_in W (upd_modes [m] s))) with (s_src s) in SU. change (insert_mode e m (upd_W_in W (upd_modes [m] s)) (s_src s)) with (insert_mode e m s (s_src s)) in SU.
  destruct (insert_mode e m s (s_src s)) as [src|] eqn:HI; [|discriminate]. injection SU as <-.
  destruct (C118_fundamental _ _ _ _ _ _ _ _ _ _ _ _ _ _ HE HS Hd HL HN HM HO HI) as (b & u & q & FU & WR & NZ). exists b, u, q. split; [exact FU|]. split; [exact WR|]. split; [|exact NZ].
  intros i j Hi Hj HNL. apply insert_inv in HI as (a0 & a1 & b0 & b1 & v & EL & _ & _ & EA). cbv zeta in EA.
  assert (D := assign_at _ _ _ _ _ _ _ i j EA). rewrite SX, SY in D. destruct (D Hj) as (_ & _ & _ & A2). cbn [upd_src s_src]. rewrite A2; [unfold nd_at; apply S0|]. intro K. apply HNL. apply (line_inds_on m _ _ i j _ _ _ _ EL). exact K.
Qed.

(** ** The fundamental mode along a straight guide *)
Definition one_phase_env (e : env) : env := mkEnv (e_pardiso e) (e_solve e) (e_rsolve e)
  (fun N A o r => match e_eigs e N A o r with Ok v => if excluded_middle_informative (one_phase N v) then Ok v else Raise ValueError | Raise x => Raise x end) (e_krylov e).
Lemma one_phase_sub e N A o r v : e_eigs (one_phase_env e) N A o r = Ok v -> e_eigs e N A o r = Ok v /\ one_phase N v.
Proof. cbn [one_phase_env e_eigs]. destruct (e_eigs e N A o r) as [w|]; [|discriminate]. destruct (excluded_middle_informative _) as [Q|]; [|discriminate]. intro K. injection K as <-. auto. Qed.
Lemma column_is_line m Nx Ny c : fills_column m Nx Ny c -> line_of m Nx Ny c 0 Ny.
Proof. intros (A & B & D). left. split; [exact A|]. split; [exact B|]. split; [lia|]. intros i j Hi Hj. rewrite (D i j Hi Hj). lia. Qed.
Lemma row_is_line m Nx Ny c : fills_row m Nx Ny c -> line_of m Nx Ny c 0 Nx.
Proof. intros (A & B & D). right. split; [exact A|]. split; [exact B|]. split; [lia|]. intros i j Hi Hj. rewrite (D i j Hi Hj). lia. Qed.
Lemma guided_line omega dl L0 N n2 nb b u : (0 < dl)%R -> guided omega dl L0 N n2 b u -> line_mode "Ez" omega dl L0 N n2 nb b u.
Proof.
  intros Hd H k Hk. cbv zeta. change (String.eqb "Ez" "Ez") with true. cbv iota. rewrite <- (H k Hk). unfold second_diff. assert (D : RtoC (dl ^ 2) <> RtoC 0) by (apply RtoC_neq0, pow_nonzero; lra). rewrite (RtoC_mult _ (n2 k)). replace (RtoC 2) with (RtoC 1 + RtoC 1)%C by (apply C_ext; cbn; ring). field. exact D.
Qed.
Theorem C118_travels_alone_x : forall e lam omega eps dl px L0 s m c src av s2 Hx Hy Ez,
  solver_exact e -> eigs_nearest e lam -> Simulation omega eps dl (Some [px; 0]%Z) "Ez" L0 = Ok s -> (0 < dl)%R -> 2 <= nd_nx eps -> 2 <= nd_ny eps -> straight_along_x eps ->
  fills_column m (nd_nx eps) (nd_ny eps) c -> one_field s -> (forall j, j < nd_ny eps -> (0 < nd_at eps c j <= md_neff m ^ 2)%R) -> md_order m = 1 ->
  insert_mode e m s (s_src s) = Ok src -> solve_fields e false av (upd_src src s) = (s2, Ok (Hx, Hy, Ez)) ->
  exists b u q g h, fundamental "Ez" omega dl L0 (nd_ny eps) (nd_at eps c) (nd_at eps c) b u /\
    (forall i j, i < nd_nx eps -> j < nd_ny eps -> nd_at src i j = if Nat.eqb i c then RtoC (q * u j) else RtoC 0) /\
    (forall i j, i < nd_nx eps -> j < nd_ny eps -> Ez (pix (nd_ny eps) i j) = (g i * RtoC (u j))%C /\ Hy (pix (nd_ny eps) i j) = (h i * RtoC (u j))%C) /\
    (forall i, i < nd_nx eps -> outside_layers (nd_nx eps) (Z.to_nat px) i ->
       (second_diff dl (nd_nx eps) g i + RtoC b * g i = if Nat.eqb i c then Ci * RtoC (omega * (MU_0 * L0) * q) else RtoC 0)%C).
Proof.
  intros e lam omega eps dl px L0 s m c src av s2 Hx Hy Ez He HE HS Hd HNx HNy HST HF H1 HM HO HI HV. assert (HXn := proj1 HF). assert (Hc := proj1 (proj2 HF)).
  assert (OP : forall T (a : nd T) k, on_pixel m c 0 a k = nd_at a c k) by (intros; unfold on_pixel; rewrite HXn; reflexivity).
  assert (HM' : forall k, k < nd_ny eps -> (0 < on_pixel m c 0 eps k <= md_neff m ^ 2)%R) by (intros k Hk; rewrite OP; apply HM; exact Hk).
  destruct (fundamental_vector _ _ _ _ _ _ _ _ _ _ _ _ _ _ HE HS Hd (column_is_line _ _ _ _ HF) HNy HM' HO HI) as (L & v & b & u & z & LS & EE & WR & FU & Hz & HVz & AG).
  assert (FU' : fundamental "Ez" omega dl L0 (nd_ny eps) (nd_at eps c) (nd_at eps c) b u).
  { destruct FU as (A & B & D). split; [exact A|]. assert (G : forall n n' mu w, line_mode "Ez" omega dl L0 (nd_ny eps) (on_pixel m c 0 eps) n mu w <-> line_mode "Ez" omega dl L0 (nd_ny eps) (nd_at eps c) n' mu w).
    { intros n n' mu w. split; intros K k Hk; specialize (K k Hk); cbv zeta in *; change (String.eqb "Ez" "Ez") with true in *; cbv iota in *; rewrite OP in *; exact K. }
    split; [exact (proj1 (G _ _ _ _) B)|]. intros mu w HW NW. apply (D mu w); [|exact NW]. exact (proj2 (G _ _ _ _) HW). }
  destruct (profile_multiple (md_scale m) (nd_ny eps) v z u HVz) as (q & HQ).
  assert (OPh : one_phase (nd_ny eps) v) by (exists z, u; exact HVz).
  set (e' := one_phase_env e).
  assert (HI' : insert_mode e' m s (s_src s) = Ok src). { apply AG. cbn [e' one_phase_env e_eigs]. rewrite EE. destruct (excluded_middle_informative _) as [|K]; [reflexivity|contradiction]. }
  assert (HV' : solve_fields e' false av (upd_src src s) = (s2, Ok (Hx, Hy, Ez))) by exact HV.
  assert (HE' : eigs_correct e' lam). { intros N A o r w HW. apply (proj1 HE). exact (proj1 (one_phase_sub _ _ _ _ _ _ HW)). }
  destruct (C117_travels_alone_x e' lam omega eps dl px L0 s m c src av s2 Hx Hy Ez) as (u' & b2 & g & h & SRC & GU & FLD & EQ); try assumption.
  { intros A o r w HW _. exact (proj2 (one_phase_sub _ _ _ _ _ _ HW)). }
  assert (UQ : forall j, j < nd_ny eps -> u' j = (q * u j)%R).
  { intros j Hj. assert (Q := SRC c j Hc Hj). rewrite Nat.eqb_refl in Q. assert (Q2 := WR j Hj). rewrite OP, (HQ j Hj), Q in Q2. apply (f_equal Re) in Q2. exact Q2. }
  exists b, u, q, (fun i => g i * RtoC q)%C, (fun i => h i * RtoC q)%C. split; [exact FU'|]. split; [|split].
  - intros i j Hi Hj. rewrite (SRC i j Hi Hj), (UQ j Hj). reflexivity.
  - intros i j Hi Hj. destruct (FLD i j Hi Hj) as [-> ->]. rewrite (UQ j Hj), RtoC_mult. split; ring.
  - intros i Hi HOi. assert (D2 : RtoC (dl ^ 2) <> RtoC 0) by (apply RtoC_neq0, pow_nonzero; lra). destruct (Req_dec q 0) as [->|Nq].
    { unfold second_diff. rewrite !Rmult_0_r. destruct (Nat.eqb i c); field; exact D2. }
    assert (U0 : (0 < u O)%R) by (apply (proj1 FU'); lia).
    assert (NU : exists j, j < nd_ny eps /\ u' j <> 0%R). { exists 0. split; [lia|]. rewrite UQ by lia. apply Rmult_integral_contrapositive_currified; lra. }
    assert (EB : b2 = RtoC b).
    { destruct FU' as (_ & B & _). assert (X := guided_line _ _ _ _ _ (nd_at eps c) _ _ Hd GU 0 ltac:(lia)). specialize (B 0 ltac:(lia)). cbv zeta in X, B. change (String.eqb "Ez" "Ez") with true in *. cbv iota beta in *.
      rewrite !UQ in X by (try apply next_lt; try apply prev_lt; lia). rewrite !RtoC_mult in X. rewrite !RtoC_mult in B.
      assert (RtoC q <> RtoC 0) as Nq' by (apply RtoC_neq0; exact Nq). assert (RtoC (u 0) <> RtoC 0) as Nu by (apply RtoC_neq0; lra).
      set (x0 := RtoC (u 0)) in *. set (x1 := RtoC (u (next _ 0))) in *. set (x2 := RtoC (u (prev _ 0))) in *. set (Q := RtoC q) in *.
      apply (Cmult_cancel_l (Q * x0)%C); [apply Cmult_neq_0; assumption|]. transitivity (b2 * (Q * x0))%C; [ring|]. rewrite <- X. transitivity (Q * (RtoC b * x0))%C; [|ring]. rewrite <- B. field. exact D2. }
    rewrite EB in EQ. assert (K := EQ NU i Hi HOi). rewrite RtoC_mult. transitivity (RtoC q * (second_diff dl (nd_nx eps) g i + RtoC b * g i))%C; [unfold second_diff; field; exact D2|]. rewrite K. destruct (Nat.eqb i c); ring.
Qed.

Theorem C118_travels_alone_y : forall e lam omega eps dl py L0 s m c src av s2 Hx Hy Ez,
  solver_exact e -> eigs_nearest e lam -> Simulation omega eps dl (Some [0; py]%Z) "Ez" L0 = Ok s -> (0 < dl)%R -> 2 <= nd_nx eps -> 2 <= nd_ny eps -> straight_along_y eps ->
  fills_row m (nd_nx eps) (nd_ny eps) c -> one_field s -> (forall j, j < nd_nx eps -> (0 < nd_at eps j c <= md_neff m ^ 2)%R) -> md_order m = 1 ->
  insert_mode e m s (s_src s) = Ok src -> solve_fields e false av (upd_src src s) = (s2, Ok (Hx, Hy, Ez)) ->
  exists b u q g h, fundamental "Ez" omega dl L0 (nd_nx eps) (fun i => nd_at eps i c) (fun i => nd_at eps i c) b u /\
    (forall i j, i < nd_nx eps -> j < nd_ny eps -> nd_at src i j = if Nat.eqb j c then RtoC (q * u i) else RtoC 0) /\
    (forall i j, i < nd_nx eps -> j < nd_ny eps -> Ez (pix (nd_ny eps) i j) = (g j * RtoC (u i))%C /\ Hx (pix (nd_ny eps) i j) = (h j * RtoC (u i))%C) /\
    (forall i, i < nd_ny eps -> outside_layers (nd_ny eps) (Z.to_nat py) i ->
       (second_diff dl (nd_ny eps) g i + RtoC b * g i = if Nat.eqb i c then Ci * RtoC (omega * (MU_0 * L0) * q) else RtoC 0)%C).
Proof.
  intros e lam omega eps dl py L0 s m c src av s2 Hx Hy Ez He HE HS Hd HNx HNy HST HF H1 HM HO HI HV. assert (HXn := proj1 HF). assert (Hc := proj1 (proj2 HF)).
  assert (OP : forall T (a : nd T) k, on_pixel m c 0 a k = nd_at a k c) by (intros; unfold on_pixel; rewrite HXn; reflexivity).
  assert (HM' : forall k, k < nd_nx eps -> (0 < on_pixel m c 0 eps k <= md_neff m ^ 2)%R) by (intros k Hk; rewrite OP; apply HM; exact Hk).
  destruct (fundamental_vector _ _ _ _ _ _ _ _ _ _ _ _ _ _ HE HS Hd (row_is_line _ _ _ _ HF) HNx HM' HO HI) as (L & v & b & u & z & LS & EE & WR & FU & Hz & HVz & AG).
  assert (FU' : fundamental "Ez" omega dl L0 (nd_nx eps) (fun i => nd_at eps i c) (fun i => nd_at eps i c) b u).
  { destruct FU as (A & B & D). split; [exact A|]. assert (G : forall n n' mu w, line_mode "Ez" omega dl L0 (nd_nx eps) (on_pixel m c 0 eps) n mu w <-> line_mode "Ez" omega dl L0 (nd_nx eps) (fun i => nd_at eps i c) n' mu w).
    { intros n n' mu w. split; intros K k Hk; specialize (K k Hk); cbv zeta in *; change (String.eqb "Ez" "Ez") with true in *; cbv iota in *; rewrite OP in *; exact K. }
    split; [exact (proj1 (G _ _ _ _) B)|]. intros mu w HW NW. apply (D mu w); [|exact NW]. exact (proj2 (G _ _ _ _) HW). }
  destruct (profile_multiple (md_scale m) (nd_nx eps) v z u HVz) as (q & HQ).
  assert (OPh : one_phase (nd_nx eps) v) by (exists z, u; exact HVz).
  set (e' := one_phase_env e).
  assert (HI' : insert_mode e' m s (s_src s) = Ok src). { apply AG. cbn [e' one_phase_env e_eigs]. rewrite EE. destruct (excluded_middle_informative _) as [|K]; [reflexivity|contradiction]. }
  assert (HV' : solve_fields e' false av (upd_src src s) = (s2, Ok (Hx, Hy, Ez))) by exact HV.
  assert (HE' : eigs_correct e' lam). { intros N A o r w HW. apply (proj1 HE). exact (proj1 (one_phase_sub _ _ _ _ _ _ HW)). }
  destruct (C117_travels_alone_y e' lam omega eps dl py L0 s m c src av s2 Hx Hy Ez) as (u' & b2 & g & h & SRC & GU & FLD & EQ); try assumption.
  { intros A o r w HW _. exact (proj2 (one_phase_sub _ _ _ _ _ _ HW)). }
  assert (UQ : forall j, j < nd_nx eps -> u' j = (q * u j)%R).
  { intros j Hj. assert (Q := SRC j c Hj Hc). rewrite Nat.eqb_refl in Q. assert (Q2 := WR j Hj). rewrite OP, (HQ j Hj), Q in Q2. apply (f_equal Re) in Q2. exact Q2. }
  exists b, u, q, (fun i => g i * RtoC q)%C, (fun i => h i * RtoC q)%C. split; [exact FU'|]. split; [|split].
  - intros i j Hi Hj. rewrite (SRC i j Hi Hj), (UQ i Hi). reflexivity.
  - intros i j Hi Hj. destruct (FLD i j Hi Hj) as [-> ->]. rewrite (UQ i Hi), RtoC_mult. split; ring.
  - intros i Hi HOi. assert (D2 : RtoC (dl ^ 2) <> RtoC 0) by (apply RtoC_neq0, pow_nonzero; lra). destruct (Req_dec q 0) as [->|Nq].
    { unfold second_diff. rewrite !Rmult_0_r. destruct (Nat.eqb i c); field; exact D2. }
    assert (U0 : (0 < u O)%R) by (apply (proj1 FU'); lia).
    assert (NU : exists j, j < nd_nx eps /\ u' j <> 0%R). { exists 0. split; [lia|]. rewrite UQ by lia. apply Rmult_integral_contrapositive_currified; lra. }
    assert (EB : b2 = RtoC b).
    { destruct FU' as (_ & B & _). assert (X := guided_line _ _ _ _ _ (fun i => nd_at eps i c) _ _ Hd GU 0 ltac:(lia)). specialize (B 0 ltac:(lia)). cbv zeta in X, B. change (String.eqb "Ez" "Ez") with true in *. cbv iota beta in *.
      rewrite !UQ in X by (try apply next_lt; try apply prev_lt; lia). rewrite !RtoC_mult in X. rewrite !RtoC_mult in B.
      assert (RtoC q <> RtoC 0) as Nq' by (apply RtoC_neq0; exact Nq). assert (RtoC (u 0) <> RtoC 0) as Nu by (apply RtoC_neq0; lra).
      set (x0 := RtoC (u 0)) in *. set (x1 := RtoC (u (next _ 0))) in *. set (x2 := RtoC (u (prev _ 0))) in *. set (Q := RtoC q) in *.
      apply (Cmult_cancel_l (Q * x0)%C); [apply Cmult_neq_0; assumption|]. transitivity (b2 * (Q * x0))%C; [ring|]. rewrite <- X. transitivity (Q * (RtoC b * x0))%C; [|ring]. rewrite <- B. field. exact D2. }
    rewrite EB in EQ. assert (K := EQ NU i Hi HOi). rewrite RtoC_mult. transitivity (RtoC q * (second_diff dl (nd_ny eps) g i + RtoC b * g i))%C; [unfold second_diff; field; exact D2|]. rewrite K. destruct (Nat.eqb i c); ring.
Qed.

(** ** The guess cannot be dropped, and the hypotheses are met *)
Definition nearest_at (N : nat) (A : mat) (lm : C) (r : R) : Prop := forall mu w, (exists k, k < N /\ w k <> RtoC 0) -> (forall k, k < N -> mv N A w k = (mu * w k)%C) -> (Cmod (lm - RtoC r)%C <= Cmod (mu - RtoC r)%C)%R.
Definition near_env (v : vec) (lm : C) : env := mkEnv false (fun _ n A b => exact_solver n A b) (fun _ _ _ _ => 0%R)
  (fun N A _ r => if excluded_middle_informative (unit_eigenvector N A lm v /\ nearest_at N A lm r) then Ok v else Raise ValueError) (fun _ E => (E, E)).
Lemma near_env_nearest v lm : eigs_nearest (near_env v lm) (fun _ _ _ _ => lm).
Proof.
  split.
  - intros N A o r u H. cbn [near_env e_eigs] in H. destruct (excluded_middle_informative _) as [[Q _]|]; [injection H as <-; exact Q|discriminate].
  - intros N A r u H. cbn [near_env e_eigs] in H. destruct (excluded_middle_informative _) as [[_ Q]|]; [exact Q|discriminate].
Qed.
Lemma near_env_exact v lm : solver_exact (near_env v lm).
Proof. intros sv n A b HA. apply exact_solver_correct; assumption. Qed.
Lemma near_env_only v lm N A o r w : e_eigs (near_env v lm) N A o r = Ok w -> w = v.
Proof. intro H. cbn [near_env e_eigs] in H. destruct (excluded_middle_informative _); [injection H as <-; reflexivity|discriminate]. Qed.
Definition across_at (neff : R) : mode := mkMode neff "x" (2, 2)%Z 3 1 1.
Lemma across_at_fills neff : fills_column (across_at neff) 6 3 2.
Proof.
  split; [reflexivity|]. split; [lia|]. intros i j Hi Hj. unfold on_line, across_at. cbn [md_center md_width md_normal]. rewrite !in_slice_bounds. split.
  - intros [(_ & A & _)|(A & _)]; [|discriminate]. unfold slice_bound in A. cbn in A. lia.
  - intros ->. left. split; [reflexivity|]. cbn. lia.
Qed.
Lemma near_inserted ec v lm neff s : fam_sim "Ez" 6 3 0 0 (guide3 ec) = Ok s -> guided ex_omega 1 1 3 ec lm v -> rsum 3 (fun k => Cmod (v k) ^ 2)%R = 1%R ->
  (forall mu w, (exists k, k < 3 /\ w k <> RtoC 0) -> guided ex_omega 1 1 3 ec mu w -> (Cmod (lm - RtoC (16 * neff ^ 2))%C <= Cmod (mu - RtoC (16 * neff ^ 2))%C)%R) ->
  exists src, insert_mode (near_env v lm) (across_at neff) s (s_src s) = Ok src /\ 
    (forall j, j < 3 -> nd_at src 2 j = mode_profile 1 v j) /\
    exists s2 a b z, solve_fields (near_env v lm) false true (upd_src src s) = (s2, Ok (a, b, z)).
Proof.
  intros HS HG HN HNr. destruct (fam_basic _ _ _ _ HS) as (Hp & Hd & HL & Ho & Ex & Ey & Ee & Es & HQ). set (e := near_env v lm).
  destruct (across_slice s ec HQ Ex Ey ltac:(intros i j Hi Hj; rewrite Ee; apply guide3_at; exact Hj)) as (LS & LB).
  assert (K := fun l w => eig_guided s (line_slice s 2 0 3) 3 ec l w Hp ltac:(rewrite Hd; lra) ltac:(lia) LS LB). rewrite Hd, HL, Ho in K.
  assert (B2 : beta2 (across_at neff) s = (16 * neff ^ 2)%R). { rewrite (beta2_K2 _ s ex_omega 1 Ho HL) by lra. cbn [across_at md_neff]. f_equal. unfold K2. rewrite <- ex_omega_sq. ring. }
  assert (E0 : e_eigs e 3 (mode_matrix s (line_slice s 2 0 3)) (md_order (across_at neff)) (beta2 (across_at neff) s) = Ok v).
  { cbn [e near_env e_eigs]. destruct (excluded_middle_informative _) as [|Q]; [reflexivity|]. exfalso; apply Q. split; [split; [exact (proj2 (K lm v) HG)|exact HN]|].
    intros mu w NW HW. rewrite B2. apply (HNr mu w NW). apply (K mu w). exact HW. }
  assert (XL : x_line (across_at neff) 2 0 3) by (unfold x_line, across_at; cbn; auto).
  destruct (insert_x (across_at neff) 2 0 3 e s (s_src s) v XL HQ) as (d & HD0 & M1 & M2 & HD); try lia; try exact E0.
  { rewrite Es, Ex. reflexivity. }
  { rewrite Es, Ey. reflexivity. }
  rewrite Ex in M1. rewrite Ey in M2. exists d. split; [exact HD0|]. split.
  - intros j Hj. rewrite HD by lia. rewrite (proj2 (Nat.leb_le 0 j)), (proj2 (Nat.ltb_lt j (0 + 3))), Nat.sub_0_r, !andb_true_r by lia. reflexivity.
  - unfold solve_fields. assert (SZ : nd_size (s_src (upd_src d s)) = s_M (upd_src d s)). { unfold nd_size, s_M. cbn [upd_src s_src s_Nx s_Ny]. rewrite M1, M2, Ex, Ey. reflexivity. }
    rewrite SZ, Nat.eqb_refl. cbn [negb]. match goal with |- context [solver_direct e ?n ?A ?b _] => destruct (solver_direct_default_ok e n A b) as [Y ->] end. destruct (derived_fields _ _ _ _) as [a3 b3]. do 4 eexists. reflexivity.
Qed.
Lemma real_profile v (r : nat -> R) k : v k = RtoC (r k) -> mode_profile 1 v k = RtoC (r k).
Proof.
  intro E. unfold mode_profile. rewrite E. replace (RtoC (r k) * RtoC 1)%C with (RtoC (r k)) by ring. cbn [Re RtoC fst]. f_equal. rewrite Cmod_R. unfold np_sign.
  destruct (Rlt_dec (r k) 0); [rewrite Rabs_left by assumption; ring|]. destruct (Rlt_dec 0 (r k)); [rewrite Rabs_pos_eq by lra; ring|]. assert (Z : r k = 0%R) by lra. rewrite Z. ring.
Qed.
(** A guess between the indices on the line: the two-signed mode of a core two pixels wide is written although its order is 1. *)
Theorem C118_low_guess_refuted :
  ~ (forall e lam omega eps dl np p L0 s m c lo N src, solver_exact e -> eigs_nearest e lam -> Simulation omega eps dl np p L0 = Ok s -> (0 < dl)%R ->
     line_of m (nd_nx eps) (nd_ny eps) c lo N -> 2 <= N -> (forall k, k < N -> (0 < on_pixel m c lo eps k)%R) ->
     (exists k l, k < N /\ l < N /\ (on_pixel m c lo eps k < md_neff m ^ 2 < on_pixel m c lo eps l)%R) -> md_order m = 1 ->
     insert_mode e m s (s_src s) = Ok src ->
     exists b u q, fundamental p omega dl L0 N (on_pixel m c lo eps) (between m N (on_pixel m c lo eps)) b u /\ (forall k, k < N -> on_pixel m c lo src k = RtoC (q * u k))).
Proof.
  intro H. destruct (fam_sim_ok "Ez" 6 3 0 0 (guide3 one_low) (or_introl eq_refl)) as [s HS]. set (v := fun j => RtoC (odd_profile j)). set (neff := (sqrt 29 / 4)%R).
  assert (N2 : (neff ^ 2 = 29 / 16)%R). { unfold neff, Rdiv. rewrite Rpow_mult_distr, <- (Rsqr_pow2 (sqrt 29)), Rsqr_sqrt by lra. field. }
  assert (P2 : (0 < / sqrt 2)%R) by (apply Rinv_0_lt_compat, sqrt_lt_R0; lra).
  assert (SQ : (/ sqrt 2 * / sqrt 2 = / 2)%R) by (rewrite <- Rinv_mult, sqrt_sqrt by lra; reflexivity).
  assert (HN : rsum 3 (fun k => Cmod (v k) ^ 2)%R = 1%R). { cbn [rsum]. unfold v. rewrite !Cmod_R, !pow2_abs. cbn [odd_profile]. nra. }
  destruct (near_inserted one_low v (RtoC 29) neff s HS odd_guided HN) as (src & HI & HD & _).
  { intros mu w _ _. rewrite N2. replace (RtoC 29 - RtoC (16 * (29 / 16)))%C with (RtoC 0) by (rewrite <- RtoC_minus; f_equal; field). rewrite Cmod_0. apply Cmod_ge_0. }
  destruct (H (near_env v (RtoC 29)) (fun _ _ _ _ => RtoC 29) ex_omega (mkNd 6 3 (guide3 one_low)) 1%R (Some [0; 0]%Z) "Ez"%string 1%R s (across_at neff) 2 0 3 src) as (b & u & q & FU & WR).
  - apply near_env_exact.
  - apply near_env_nearest.
  - exact HS.
  - lra.
  - apply column_is_line, across_at_fills.
  - lia.
  - intros k Hk. unfold on_pixel. cbn [across_at md_normal]. change (String.eqb "x" "x") with true. cbv iota. rewrite guide3_at by lia. unfold one_low. cbn [Nat.add]. destruct k; lra.
  - exists 0, 1. split; [lia|]. split; [lia|]. unfold on_pixel. cbn [across_at md_normal md_neff]. change (String.eqb "x" "x") with true. cbv iota. rewrite !guide3_at by lia. cbn [one_low Nat.add]. rewrite N2. lra.
  - reflexivity.
  - exact HI.
  - assert (G : forall k, k < 3 -> odd_profile k = (q * u k)%R).
    { intros k Hk. assert (Q := WR k Hk). unfold on_pixel in Q. cbn [across_at md_normal] in Q. change (String.eqb "x" "x") with true in Q. cbv iota in Q. cbn [Nat.add] in Q. rewrite (HD k Hk), (real_profile v odd_profile k eq_refl) in Q. apply (f_equal Re) in Q. exact Q. }
    destruct FU as (PU & _). assert (A1 := G 1 ltac:(lia)). assert (A2 := G 2 ltac:(lia)). assert (B1 := PU 1 ltac:(lia)). assert (B2 := PU 2 ltac:(lia)). cbn [odd_profile] in A1, A2.
    assert (Q1 : (0 < q)%R). { apply NNPP. intro K. assert (X : (0 <= (- q) * u 1%nat)%R) by (apply Rmult_le_pos; lra). lra. }
    assert (X : (0 < q * u 2%nat)%R) by (apply Rmult_lt_0_compat; assumption). lra.
Qed.

Example C118_met : exists e lam s src s2 Hx Hy Ez, let eps := mkNd 6 3 (guide3 one_low) in
  solver_exact e /\ eigs_nearest e lam /\ Simulation ex_omega eps 1 (Some [0; 0]%Z) "Ez" 1 = Ok s /\ straight_along_x eps /\ nd_at eps 2 0 <> nd_at eps 2 1 /\
  fills_column (across_at 2) 6 3 2 /\ line_of (across_at 2) 6 3 2 0 3 /\ one_field s /\ (forall j, j < 3 -> (0 < nd_at eps 2 j <= md_neff (across_at 2) ^ 2)%R) /\ md_order (across_at 2) = 1 /\
  (forall A r v, e_eigs e 3 A 1 r = Ok v -> exists k, k < 3 /\ Re (v k) <> 0%R) /\
  insert_mode e (across_at 2) s (s_src s) = Ok src /\ solve_fields e false true (upd_src src s) = (s2, Ok (Hx, Hy, Ez)) /\ (forall j, j < 3 -> (0 < Re (nd_at src 2 j))%R).
Proof.
  destruct (fam_sim_ok "Ez" 6 3 0 0 (guide3 one_low) (or_introl eq_refl)) as [s HS].
  assert (HM : forall k, k < 3 -> (0 < one_low k <= 2)%R) by (intros k _; unfold one_low; destruct k; lra).
  destruct (C118_fundamental_exists "Ez" ex_omega 1 1 3 one_low one_low 2 ltac:(lia) Rlt_0_1 HM (fun k Hk => proj1 (HM k Hk))) as (b & u & (PU & LM & TOP) & LB & _). cbv zeta in LB.
  assert (B16 : (b <= 16 * 2)%R). { rewrite <- ex_omega_sq. eapply Rle_trans; [exact LB|]. right. ring. }
  assert (LG : forall mu w, line_mode "Ez" ex_omega 1 1 3 one_low one_low mu w <-> guided ex_omega 1 1 3 one_low mu w).
  { intros mu w. split; [|apply guided_line; lra]. intros X k Hk. specialize (X k Hk). cbv zeta in X. change (String.eqb "Ez" "Ez") with true in X. cbv iota in X. rewrite <- X. unfold second_diff.
    rewrite (RtoC_mult _ (one_low k)). replace (RtoC 2) with (RtoC 1 + RtoC 1)%C by (apply C_ext; cbn; ring). field. apply RtoC_neq0, pow_nonzero. lra. }
  set (S := rsum 3 (fun k => u k ^ 2)%R). assert (SP : (0 < S)%R). { unfold S. apply (rsum_sq_pos 3 u 0); [lia|]. assert (Q := PU 0 ltac:(lia)). lra. }
  set (r := fun k => (/ sqrt S * u k)%R). assert (IS : (0 < / sqrt S)%R) by (apply Rinv_0_lt_compat, sqrt_lt_R0; exact SP). set (v := fun k => RtoC (r k)).
  assert (HG : guided ex_omega 1 1 3 one_low (RtoC b) v).
  { apply LG in LM. assert (Q := guided_lin ex_omega 1 1 3 one_low (RtoC b) (RtoC (/ sqrt S)) (RtoC 0) _ _ LM LM). intros k Hk. specialize (Q k Hk).
    assert (EV : forall j, v j = (RtoC (/ sqrt S) * RtoC (u j) + RtoC 0 * RtoC (u j))%C) by (intro j; unfold v, r; rewrite RtoC_mult; ring). unfold second_diff in *. rewrite !EV. exact Q. }
  assert (HN : rsum 3 (fun k => Cmod (v k) ^ 2)%R = 1%R).
  { rewrite (rsum_ext 3 _ (fun k => (/ sqrt S) ^ 2 * u k ^ 2)%R) by (intros k Hk; unfold v, r; rewrite Cmod_R, pow2_abs; ring). rewrite rsum_scal. fold S. rewrite <- Rsqr_pow2. unfold Rsqr. rewrite <- Rinv_mult, sqrt_sqrt by lra. apply Rinv_l. lra. }
  destruct (near_inserted one_low v (RtoC b) 2 s HS HG HN) as (src & HI & HD & s2 & a & bb & z & SF).
  { intros mu w NW HW. destruct (TOP mu w (proj2 (LG mu w) HW) NW) as (x & -> & LX & _). rewrite <- !RtoC_minus, !Cmod_R. rewrite !Rabs_left1 by lra. lra. }
  destruct (fam_plain _ _ _ _ HS ltac:(lia) ltac:(lia)) as (_ & _ & NS & _).
  { intros k Hk. unfold guide3, one_low. destruct (k mod 3); lra. }
  exists (near_env v (RtoC b)), (fun _ _ _ _ => RtoC b), s, src, s2, a, bb, z. cbv zeta. split; [apply near_env_exact|]. split; [apply near_env_nearest|]. split; [exact HS|]. split; [apply guide3_straight|].
  split; [rewrite !guide3_at by lia; cbn; lra|]. split; [apply across_at_fills|]. split; [apply column_is_line, across_at_fills|]. split; [apply one_field_iff; exact NS|].
  split; [intros j Hj; rewrite guide3_at by lia; cbn [across_at md_neff]; assert (Q := HM j Hj); lra|]. split; [reflexivity|].
  assert (RP : forall k, k < 3 -> (0 < r k)%R) by (intros k Hk; apply Rmult_lt_0_compat; [exact IS|apply PU; exact Hk]).
  split; [intros A r0 w HW; apply near_env_only in HW; subst w; exists 0; split; [lia|]; cbn [v Re RtoC fst]; assert (Q := RP 0 ltac:(lia)); unfold v; cbn [Re RtoC fst]; lra|].
  split; [exact HI|]. split; [exact SF|]. intros j Hj. rewrite (HD j Hj), (real_profile v r j eq_refl). cbn [Re RtoC fst]. apply RP. exact Hj.
Qed.

(** setting up: three pixels of a uniform grid *)
Definition mid_two : mode := mkMode 2 "x" (2, 3)%Z 3 1 1.
Lemma mid_two_line : x_line mid_two 2 1 3.
Proof. unfold x_line, mid_two; cbn. auto. Qed.
Lemma uniform_near (x : R) t m r : (x ^ 2 = / 3)%R -> (32 <= r)%R ->
  s_pol t = PolEz -> s_dl t = 1%R -> s_L0 t = 1%R -> s_omega t = ex_omega -> square_src t -> s_Nx t = 6 -> s_Ny t = 6 ->
  (forall i j, i < 6 -> j < 6 -> nd_at (s_eps t) i j = 2%R) -> beta2 m t = r ->
  e_eigs (near_env (fun _ => RtoC x) (RtoC 32)) 3 (mode_matrix t (line_slice t 2 1 3)) 1 (beta2 m t) = Ok (fun _ => RtoC x).
Proof.
  intros Hx Hr Tp Td TL To TQ Tx Ty TE HB. cbn [near_env e_eigs]. destruct (excluded_middle_informative _) as [|Q]; [reflexivity|]. exfalso; apply Q. clear Q.
  assert (U := uniform_eig x 2 6 t m Hx ltac:(lia) ltac:(lia) Tp Td TL To TQ Tx Ty TE). apply sign_env_correct in U. split; [exact U|].
  destruct (line_slice_size t 2 1 3 TQ ltac:(lia) ltac:(lia)) as (_ & _ & LS).
  assert (LB : forall j, j < 3 -> nd_buf (line_slice t 2 1 3) j = two_eps j).
  { intros j Hj. destruct TQ as (T1 & T2 & _). unfold line_slice. cbn [nd_slice nd_buf]. rewrite T1, T2, Tx, Ty. rewrite !slice_bound_in by lia.
    replace (Z.to_nat (Z.of_nat (1 + 3)) - Z.to_nat (Z.of_nat 1))%nat with 3%nat by lia. rewrite Nat.div_small, Nat.mod_small by lia. apply TE; lia. }
  intros mu w NW HW. assert (K := eig_guided t (line_slice t 2 1 3) 3 two_eps mu w Tp ltac:(rewrite Td; lra) ltac:(lia) LS LB). rewrite Td, TL, To in K. apply K in HW.
  apply (guided_line ex_omega 1 1 3 two_eps two_eps) in HW; [|lra].
  assert (HM : forall k, k < 3 -> (0 < two_eps k <= 2)%R) by (intros; unfold two_eps; lra).
  destruct (C118_fundamental_exists "Ez" ex_omega 1 1 3 two_eps two_eps 2 ltac:(lia) Rlt_0_1 HM (fun k Hk => proj1 (HM k Hk))) as (b & u & (PU & LM & TOP) & BU & _). cbv zeta in BU.
  assert (B16 : (b <= 16 * 2)%R). { rewrite <- ex_omega_sq. eapply Rle_trans; [exact BU|]. right. ring. }
  destruct (TOP mu w HW NW) as (y & -> & LY & _). rewrite HB. rewrite <- !RtoC_minus, !Cmod_R, !Rabs_left1 by lra. lra.
Qed.
Example C118_set_up_met : exists e lam s s1, let eps := mkNd 6 6 two_eps in
  eigs_nearest e lam /\ Simulation ex_omega eps 1 (Some [0; 0]%Z) "Ez" 1 = Ok s /\ line_of mid_two 6 6 2 1 3 /\
  (forall k, k < 3 -> (0 < on_pixel mid_two 2 1 eps k <= md_neff mid_two ^ 2)%R) /\ md_order mid_two = 1 /\ md_scale mid_two <> 0%R /\
  (forall A r v, e_eigs e 3 A 1 r = Ok v -> exists k, k < 3 /\ Re (v k) <> 0%R) /\ setup_modes e (fst (add_mode mid_two s)) = (s1, Ok tt).
Proof.
  destruct (fam_sim_ok "Ez" 6 6 0 0 two_eps (or_introl eq_refl)) as [s0 HS]. destruct (fam_basic _ _ _ _ HS) as (Hp & Hd & HL & Ho & Ex & Ey & Ee & Es & HQ).
  set (x := (/ sqrt 3)%R). assert (Hx : (x ^ 2 = / 3)%R) by (rewrite <- third; unfold Rsqr, x; ring). assert (PX : (0 < x)%R) by (apply Rinv_0_lt_compat, sqrt_lt_R0; lra).
  set (e := near_env (fun _ => RtoC x) (RtoC 32)). set (s := upd_modes [mid_two] s0).
  assert (B2 : beta2 mid_two s = 64%R). { rewrite (beta2_K2 mid_two s ex_omega 1 Ho HL) by lra. cbn [mid_two md_neff]. unfold K2. generalize ex_omega_sq. intro Q. replace (ex_omega ^ 2 * (MU_0 * 1) * (EPSILON_0 * 1))%R with (ex_omega ^ 2 * (EPSILON_0 * MU_0))%R by ring. rewrite Q. ring. }
  assert (E0 : e_eigs e 3 (mode_matrix s (line_slice s 2 1 3)) 1 (beta2 mid_two s) = Ok (fun _ => RtoC x)).
  { apply (uniform_near x s mid_two 64); try assumption; [lra|]. intros i j Hi Hj. change (s_eps s) with (s_eps s0). rewrite Ee. reflexivity. }
  assert (E1 : e_eigs e 3 (mode_matrix (norm_sim mid_two s 2) (line_slice (norm_sim mid_two s 2) 2 1 3)) 1 (beta2 mid_two s) = Ok (fun _ => RtoC x)).
  { change (beta2 mid_two s) with (beta2 mid_two (norm_sim mid_two s 2)). apply (uniform_near x (norm_sim mid_two s 2) mid_two 64); try assumption; [lra|exact (norm_square mid_two s 2 HQ)|].
    apply uniform_norm_eps; try assumption; lia. }
  assert (Xs : s_Nx s = 6) by exact Ex. assert (Ys : s_Ny s = 6) by exact Ey.
  destruct (norm_x mid_two 2 1 3 e s (fun _ => RtoC x) mid_two_line HQ ltac:(lia) ltac:(lia) ltac:(lia) E1) as (src & a & b & z & HI & D1 & D2 & D3 & H4). cbv zeta in H4. destruct H4 as [HF HW].
  assert (Ps : s_pol s = PolEz) by exact Hp. rewrite Ps in HF, HW. set (s2 := upd_fields _ _) in HW, HF.
  rewrite (flux_x_inside s2 false z b _ _ _ 1 4) in HW.
  2:{ subst s2. cbn [upd_fields s_fields s_pol upd_src norm_sim set_eps]. change (s_pol s) with (s_pol s0). rewrite Hp. reflexivity. }
  2:{ subst s2. cbn [upd_fields s_fields s_pol upd_src norm_sim set_eps]. change (s_pol s) with (s_pol s0). rewrite Hp. reflexivity. }
  2,3: reflexivity.
  2: rewrite Xs; lia.
  2:{ subst s2. cbn [upd_fields s_Nx upd_src norm_sim set_eps]. cbn [nd_nx]. rewrite Xs. lia. }
  2: lia.
  2:{ subst s2. cbn [upd_fields s_Ny upd_src norm_sim set_eps]. cbn [nd_ny]. rewrite Ys. lia. }
  match type of HW with compute_normalization _ _ _ = Ok ?w => set (W := w) in * end.
  destruct (insert_x mid_two 2 1 3 e (upd_W_in W s) (s_src s) (fun _ => RtoC x) mid_two_line HQ) as (d & HD0 & _ & _ & _).
  { change (nd_nx (s_src s0) = s_Nx s0). rewrite Es, Ex. reflexivity. }
  { change (nd_ny (s_src s0) = s_Ny s0). rewrite Es, Ey. reflexivity. }
  { change (2 < s_Nx s). lia. }
  { change (1 + 3 <= s_Ny s). lia. }
  { lia. }
  { exact E0. }
  exists e, (fun _ _ _ _ => RtoC 32), s0, (upd_src d (upd_W_in W s)). cbv zeta. split; [apply near_env_nearest|]. split; [exact HS|]. split; [|split; [|split; [|split; [|split]]]].
  - left. split; [reflexivity|]. split; [lia|]. split; [lia|]. intros i j Hi Hj. unfold on_line, mid_two. cbn [md_center md_width md_normal]. rewrite !in_slice_bounds. split.
    + intros [(_ & A & B)|(A & _)]; [|discriminate]. unfold slice_bound in A, B. cbn in A, B. lia.
    + intros [-> B]. left. split; [reflexivity|]. cbn. lia.
  - intros k Hk. unfold on_pixel. cbn [mid_two md_normal md_neff]. change (String.eqb "x" "x") with true. cbv iota. unfold nd_at, two_eps. cbn [nd_buf]. lra.
  - reflexivity.
  - cbn. lra.
  - intros A r v HV. apply near_env_only in HV. subst v. exists 0. split; [lia|]. cbn [Re RtoC fst]. lra.
  - destruct (fresh_slots _ _ _ _ _ _ _ HS) as (_ & _ & _ & _ & _ & _ & _ & _ & _ & MD). unfold add_mode, modS. cbn [fst]. unfold setup_modes. rewrite MD. cbn [app]. change (s_modes (upd_modes [mid_two] s0)) with [mid_two]. cbn [setup_list]. unfold bind. fold s.
    unfold setup_src. rewrite HW. cbv zeta. change (s_src (upd_W_in W s)) with (s_src s). rewrite HD0. reflexivity.
Qed.
