(** C120: how the fundamental mode follows the guide. *)
From Coq Require Import Reals Lra Lia List ZArith Arith Bool String Classical ClassicalEpsilon.
From Coquelicot Require Import Coquelicot.
From Verif Require Import Base Linear MCore MSim MFilter MOpt MMode Spec PCore PSim PropsCore PSym PropsSolve PEx PExOpt PropsFlux PMode PropsMode PropsSolv PropsOpt3 PropsGuide PropsFund PropsGuideHz.
Import ListNotations.
Local Open Scope nat_scope.

(** ** Fundamental modes are the top of the Rayleigh quotient *)
Lemma fundamental_chain p omega dl L0 N n2 nb b u : 2 <= N -> (0 < dl)%R -> (forall k, k < N -> (0 < n2 k)%R) -> (forall k, k < N -> (0 < nb k)%R) -> fundamental p omega dl L0 N n2 nb b u ->
  top_of N (c_of p dl nb) (d_of p (K2 omega L0) n2) (r_of p n2) b /\ chain_mode N (c_of p dl nb) (d_of p (K2 omega L0) n2) (r_of p n2) b u.
Proof.
  intros HN Hd HP HB (PU & LM & MX). assert (Hc := c_of_pos p dl nb N Hd HB). assert (Hr := r_of_pos p n2 N HP).
  assert (HM : forall k, k < N -> (0 < n2 k <= coef_bound N n2)%R). { intros k Hk. split; [apply HP; exact Hk|]. eapply Rle_trans; [apply Rle_abs|]. apply coef_le. exact Hk. }
  destruct (top_mode N (c_of p dl nb) (d_of p (K2 omega L0) n2) (r_of p n2) (K2 omega L0 * coef_bound N n2) ltac:(lia) (fun j Hj => Rlt_le _ _ (Hc j Hj)) Hr (d_of_le p _ n2 N _ (K2_ge0 omega L0) HM)) as (b0 & u0 & HT & HU0 & NZ0 & _).
  destruct (top_abs N _ _ _ b0 u0 ltac:(lia) Hc HT HU0 NZ0) as (HU & PU0).
  assert (F0 := top_fundamental p omega dl L0 N n2 nb b0 _ HN Hd HP HB HT HU PU0). destruct F0 as (_ & LM0 & MX0).
  assert (NZ : forall w : nat -> R, (forall k, k < N -> (0 < w k)%R) -> exists k, k < N /\ RtoC (w k) <> RtoC 0). { intros w Hw. exists 0. split; [lia|]. apply RtoC_neq0. assert (Q := Hw 0 ltac:(lia)). lra. }
  destruct (MX0 _ _ LM (NZ _ PU)) as (x & EX & LX & _). destruct (MX _ _ LM0 (NZ _ PU0)) as (y & EY & LY & _).
  apply (f_equal Re) in EX. apply (f_equal Re) in EY. cbn [Re RtoC fst] in EX, EY. assert (E : b = b0) by lra. split; [rewrite E; exact HT|].
  apply line_chain in LM; try assumption. intros j Hj. assert (Q := f_equal Re (LM j Hj)). cbn [Re RtoC fst snd] in Q. unfold Cmult in Q. cbn [Re RtoC fst snd] in Q.
  transitivity (b * r_of p n2 j * u j)%R; [|reflexivity]. etransitivity; [exact Q|]. ring.
Qed.
Lemma fundamental_unique p omega dl L0 N n2 nb b u b' u' : 2 <= N -> fundamental p omega dl L0 N n2 nb b u -> fundamental p omega dl L0 N n2 nb b' u' ->
  b = b' /\ exists t, (0 < t)%R /\ forall k, k < N -> u' k = (t * u k)%R.
Proof.
  intros HN (PU & LM & MX) (PU' & LM' & MX').
  assert (NZ : forall w : nat -> R, (forall k, k < N -> (0 < w k)%R) -> exists k, k < N /\ RtoC (w k) <> RtoC 0). { intros w Hw. exists 0. split; [lia|]. apply RtoC_neq0. assert (Q := Hw 0 ltac:(lia)). lra. }
  destruct (MX' _ _ LM (NZ _ PU)) as (x & EX & LX & _). destruct (MX _ _ LM' (NZ _ PU')) as (y & EY & LY & UY).
  apply (f_equal Re) in EX. apply (f_equal Re) in EY. cbn [Re RtoC fst] in EX, EY. assert (E : b = b') by lra. split; [exact E|].
  destruct (UY ltac:(lra)) as (z & HZ). assert (R : forall k, k < N -> u' k = (Re z * u k)%R). { intros k Hk. assert (Q := f_equal Re (HZ k Hk)). destruct z. cbn in Q. cbn. rewrite Q. ring. }
  exists (Re z). split; [|exact R]. assert (Q := R 0 ltac:(lia)). assert (A := PU 0 ltac:(lia)). assert (B := PU' 0 ltac:(lia)). rewrite Q in B. apply (Rmult_lt_reg_r (u 0)); [exact A|]. rewrite Rmult_0_l. exact B.
Qed.

(** the quotient at a mode, and below the top *)
Definition stiff (N : nat) (c x : nat -> R) : R := rsum N (fun j => c j * (x j - x (prev N j)) ^ 2)%R.
Lemma bil_stiff N c d x : bil N c d x x = (rsum N (fun j => d j * x j ^ 2) - stiff N c x)%R.
Proof. unfold bil, stiff. f_equal; apply rsum_ext; intros; ring. Qed.
Lemma stiff_ge0 N c x : (forall j, j < N -> (0 < c j)%R) -> (0 <= stiff N c x)%R.
Proof. intro H. apply rsum_ge0. intros j Hj. apply Rmult_le_pos; [apply Rlt_le, H; exact Hj|apply pow2_ge_0]. Qed.
Lemma mode_quotient N c d r b u : chain_mode N c d r b u -> (rsum N (fun j => d j * u j ^ 2) - stiff N c u = b * wsq N r u)%R.
Proof. intro H. rewrite <- bil_stiff, (bil_mode N c d r b u u H). f_equal. apply rsum_ext. intros; ring. Qed.
Lemma top_quotient N c d r b x : top_of N c d r b -> (rsum N (fun j => d j * x j ^ 2) - stiff N c x <= b * wsq N r x)%R.
Proof. intro H. rewrite <- bil_stiff. apply H. Qed.
Lemma wsq_pos N r u : 0 < N -> (forall j, j < N -> (0 < r j)%R) -> (forall j, j < N -> (0 < u j)%R) -> (0 < wsq N r u)%R.
Proof.
  intros HN HR HU. apply Rlt_le_trans with (r 0%nat * u 0%nat ^ 2)%R; [apply Rmult_lt_0_compat; [apply HR; exact HN|apply pow_lt, HU; exact HN]|].
  apply (rsum_term_le N (fun j => r j * u j ^ 2)%R 0); [|exact HN]. intros j Hj. apply Rmult_le_pos; [apply Rlt_le, HR; exact Hj|apply pow2_ge_0].
Qed.
Lemma rsum_lt N f g j : j < N -> (forall k, k < N -> (f k <= g k)%R) -> (f j < g j)%R -> (rsum N f < rsum N g)%R.
Proof.
  intros Hj HL HS. assert (Q := rsum_term_le N (fun k => g k - f k)%R j (fun k Hk => Rge_le _ _ (Rge_minus _ _ (Rle_ge _ _ (HL k Hk)))) Hj). cbv beta in Q. rewrite rsum_minus in Q. lra.
Qed.
Lemma K2_pos omega L0 : (0 < omega)%R -> (0 < L0)%R -> (0 < K2 omega L0)%R.
Proof. intros A B. unfold K2. assert (M := MU_0_pos). assert (E := EPSILON_0_pos). repeat apply Rmult_lt_0_compat; try assumption; lra. Qed.
Lemma K2_lt w w' L0 : (0 < w)%R -> (0 < L0)%R -> (w < w')%R -> (K2 w L0 < K2 w' L0)%R.
Proof.
  intros A B L. unfold K2. assert (M := MU_0_pos). assert (E := EPSILON_0_pos). apply Rmult_lt_compat_r; [apply Rmult_lt_0_compat; lra|]. apply Rmult_lt_compat_r; [apply Rmult_lt_0_compat; lra|].
  simpl. rewrite !Rmult_1_r. apply Rmult_le_0_lt_compat; lra.
Qed.

Section Line.
Variables (p : string) (dl L0 : R) (N : nat).
Hypothesis HN : 2 <= N.
Hypothesis Hd : (0 < dl)%R.
Hypothesis HL : (0 < L0)%R.
(** the propagation constant of the fundamental mode is positive *)
Lemma fundamental_pos omega n2 nb b u : (0 < omega)%R -> (forall k, k < N -> (0 < n2 k)%R) -> (forall k, k < N -> (0 < nb k)%R) -> fundamental p omega dl L0 N n2 nb b u -> (0 < b)%R.
Proof.
  intros Hw HP HB FU. destruct (fundamental_chain _ _ _ _ _ _ _ _ _ HN Hd HP HB FU) as [HT _]. assert (Q := top_quotient _ _ _ _ _ (fun _ => 1%R) HT).
  assert (Hr := r_of_pos p n2 N HP). assert (W := wsq_pos N (r_of p n2) (fun _ => 1%R) ltac:(lia) Hr ltac:(intros; lra)). assert (KP := K2_pos omega L0 Hw HL).
  assert (S : stiff N (c_of p dl nb) (fun _ => 1%R) = 0%R) by (apply rsum_0; intros; ring). rewrite S in Q.
  assert (D : (0 < rsum N (fun j => d_of p (K2 omega L0) n2 j * 1 ^ 2))%R).
  { apply (wsq_pos N (d_of p (K2 omega L0) n2) (fun _ => 1%R)); [lia| |intros; lra]. intros j Hj. unfold d_of. destruct (String.eqb p "Ez"); [|exact KP]. apply Rmult_lt_0_compat; [exact KP|apply HP; exact Hj]. }
  apply (Rmult_lt_reg_r (wsq N (r_of p n2) (fun _ => 1%R))); [exact W|]. rewrite Rmult_0_l. lra.
Qed.
Lemma more_eps omega n2 nb n2' nb' b u b' u' : (0 < omega)%R -> (forall k, k < N -> (0 < n2 k)%R) -> (forall k, k < N -> (0 < nb k)%R) ->
  (forall k, k < N -> (n2 k <= n2' k)%R) -> (forall k, k < N -> (nb k <= nb' k)%R) -> fundamental p omega dl L0 N n2 nb b u -> fundamental p omega dl L0 N n2' nb' b' u' ->
  (b <= b')%R /\ ((exists k, k < N /\ (n2 k < n2' k)%R) -> (b < b')%R).
Proof.
  intros Hw HP HB HLe HLb FU FU'.
  assert (HP' : forall k, k < N -> (0 < n2' k)%R) by (intros k Hk; eapply Rlt_le_trans; [apply HP|apply HLe]; exact Hk). assert (HB' : forall k, k < N -> (0 < nb' k)%R) by (intros k Hk; eapply Rlt_le_trans; [apply HB|apply HLb]; exact Hk).
  assert (BP := fundamental_pos _ _ _ _ _ Hw HP' HB' FU'). assert (KP := K2_pos omega L0 Hw HL).
  destruct (fundamental_chain _ _ _ _ _ _ _ _ _ HN Hd HP HB FU) as [_ HU]. destruct (fundamental_chain _ _ _ _ _ _ _ _ _ HN Hd HP' HB' FU') as [HT' _]. destruct FU as (PU & _ & _).
  assert (E := mode_quotient _ _ _ _ _ _ HU). assert (Q := top_quotient _ _ _ _ _ u HT').
  assert (D2 : (0 < dl ^ 2)%R) by (apply pow_lt; exact Hd).
  assert (ST : (stiff N (c_of p dl nb') u <= stiff N (c_of p dl nb) u)%R).
  { apply rsum_le. intros k Hk. apply Rmult_le_compat_r; [apply pow2_ge_0|]. unfold c_of. destruct (String.eqb p "Ez"); [lra|]. apply Rinv_le_contravar; [apply Rmult_lt_0_compat; [apply HB; exact Hk|exact D2]|]. apply Rmult_le_compat_r; [lra|apply HLb; exact Hk]. }
  assert (W := wsq_pos N (r_of p n2) u ltac:(lia) (r_of_pos p n2 N HP) PU). unfold d_of, r_of, wsq in *. destruct (String.eqb p "Ez").
  - assert (X : (rsum N (fun j => K2 omega L0 * n2 j * u j ^ 2) <= rsum N (fun j => K2 omega L0 * n2' j * u j ^ 2))%R).
    { apply rsum_le. intros k Hk. apply Rmult_le_compat_r; [apply pow2_ge_0|]. apply Rmult_le_compat_l; [lra|apply HLe; exact Hk]. }
    set (Wu := rsum N (fun j => 1 * u j ^ 2)%R) in *. split.
    + apply (Rmult_le_reg_r Wu); [exact W|]. lra.
    + intros (k & Hk & LK). apply (Rmult_lt_reg_r Wu); [exact W|].
      assert (X' : (rsum N (fun j => K2 omega L0 * n2 j * u j ^ 2) < rsum N (fun j => K2 omega L0 * n2' j * u j ^ 2))%R); [|lra].
      apply (rsum_lt N _ _ k Hk); [intros j Hj; apply Rmult_le_compat_r; [apply pow2_ge_0|]; apply Rmult_le_compat_l; [lra|apply HLe; exact Hj]|].
      apply Rmult_lt_compat_r; [apply pow_lt, PU; exact Hk|]. apply Rmult_lt_compat_l; assumption.
  - assert (LE : forall j, j < N -> (/ n2' j * u j ^ 2 <= / n2 j * u j ^ 2)%R).
    { intros j Hj. apply Rmult_le_compat_r; [apply pow2_ge_0|]. apply Rinv_le_contravar; [apply HP; exact Hj|apply HLe; exact Hj]. }
    assert (X := rsum_le N _ _ LE). set (Wu := rsum N (fun j => / n2 j * u j ^ 2)%R) in *. set (Wu' := rsum N (fun j => / n2' j * u j ^ 2)%R) in *.
    assert (Y : (b' * Wu' <= b' * Wu)%R) by (apply Rmult_le_compat_l; lra). split.
    + apply (Rmult_le_reg_r Wu); [exact W|]. lra.
    + intros (k & Hk & LK). apply (Rmult_lt_reg_r Wu); [exact W|].
      assert (X' : (Wu' < Wu)%R). { apply (rsum_lt N _ _ k Hk LE). apply Rmult_lt_compat_r; [apply pow_lt, PU; exact Hk|]. apply Rinv_lt_contravar; [apply Rmult_lt_0_compat; [apply HP|apply HP']; exact Hk|exact LK]. }
      assert (Y' : (b' * Wu' < b' * Wu)%R) by (apply Rmult_lt_compat_l; lra). lra.
Qed.
End Line.

(** ** Frequency *)
Definition uniform (N : nat) (n2 : nat -> R) : Prop := forall j k, j < N -> k < N -> n2 j = n2 k.
Definition e_of (p : string) (n2 : nat -> R) (j : nat) : R := if String.eqb p "Ez" then n2 j else 1%R.
Lemma d_of_e p k n2 j : d_of p k n2 j = (k * e_of p n2 j)%R.
Proof. unfold d_of, e_of. destruct (String.eqb p "Ez"); ring. Qed.
Lemma e_r p n2 j : (0 < n2 j)%R -> e_of p n2 j = (n2 j * r_of p n2 j)%R.
Proof. intro H. unfold e_of, r_of. destruct (String.eqb p "Ez"); [ring|]. field. lra. Qed.
Lemma e_scal N p k n2 x : rsum N (fun j => d_of p k n2 j * x j ^ 2)%R = (k * rsum N (fun j => e_of p n2 j * x j ^ 2))%R.
Proof. rewrite <- rsum_scal. apply rsum_ext. intros j Hj. rewrite d_of_e. ring. Qed.
Lemma stiff_zero N c u : (forall j, j < N -> (0 < c j)%R) -> stiff N c u = 0%R -> forall j, j < N -> u j = u (prev N j).
Proof.
  intros Hc HS j Hj. assert (Q := rsum_term_le N (fun j => c j * (u j - u (prev N j)) ^ 2)%R j (fun k Hk => Rmult_le_pos _ _ (Rlt_le _ _ (Hc k Hk)) (pow2_ge_0 _)) Hj). cbv beta in Q. unfold stiff in HS. rewrite HS in Q.
  assert (P := Hc j Hj). assert (S := pow2_ge_0 (u j - u (prev N j))). assert (Z : ((u j - u (prev N j)) ^ 2 = 0)%R).
  { apply Rle_antisym; [|exact S]. apply (Rmult_le_reg_l (c j)); [exact P|]. lra. }
  apply Rminus_diag_uniq. replace ((u j - u (prev N j)) ^ 2)%R with (Rsqr (u j - u (prev N j))) in Z by (unfold Rsqr; ring). apply Rsqr_0_uniq. exact Z.
Qed.
(** a mode without variation needs a uniform line *)
Lemma flat_uniform N c p k2 n2 b u : (0 < k2)%R -> (forall j, j < N -> (0 < n2 j)%R) -> (forall j, j < N -> (0 < u j)%R) -> (forall j, j < N -> u j = u (prev N j)) -> chain_mode N c (d_of p k2 n2) (r_of p n2) b u -> forall j, j < N -> (k2 * n2 j = b)%R.
Proof.
  intros HK HP HU HF HM j Hj. assert (Q := HM j Hj). unfold chain in Q. assert (Hn := next_lt N j Hj). assert (F1 := HF j Hj). assert (F2 := HF _ Hn). rewrite prev_next in F2 by exact Hj. rewrite <- F1, F2 in Q.
  rewrite d_of_e, (e_r p n2 j (HP j Hj)) in Q. assert (R := r_of_pos p n2 N HP j Hj). assert (U := HU j Hj).
  apply (Rmult_eq_reg_r (r_of p n2 j * u j)); [|apply Rgt_not_eq, Rmult_lt_0_compat; assumption]. lra.
Qed.
Section Line2.
Variables (p : string) (dl L0 : R) (N : nat).
Hypothesis HN : 2 <= N.
Hypothesis Hd : (0 < dl)%R.
Hypothesis HL : (0 < L0)%R.
Lemma uniform_constant omega n2 nb b u : (forall k, k < N -> (0 < n2 k)%R) -> (forall k, k < N -> (0 < nb k)%R) -> uniform N n2 -> fundamental p omega dl L0 N n2 nb b u -> b = (K2 omega L0 * n2 O)%R.
Proof.
  intros HP HB HUn FU. assert (Hc := c_of_pos p dl nb N Hd HB). assert (Hr := r_of_pos p n2 N HP). destruct (fundamental_chain _ _ _ _ _ _ _ _ _ HN Hd HP HB FU) as [HT HU]. destruct FU as (PU & _ & _).
  assert (EW : forall x, rsum N (fun j => e_of p n2 j * x j ^ 2)%R = (n2 O * wsq N (r_of p n2) x)%R).
  { intro x. unfold wsq. rewrite <- rsum_scal. apply rsum_ext. intros j Hj. rewrite (e_r p n2 j (HP j Hj)), (HUn j 0 Hj ltac:(lia)). ring. }
  assert (Q := mode_quotient _ _ _ _ _ _ HU). assert (T := top_quotient _ _ _ _ _ (fun _ => 1%R) HT). rewrite e_scal, EW in Q, T.
  assert (S1 : stiff N (c_of p dl nb) (fun _ => 1%R) = 0%R) by (apply rsum_0; intros; ring). rewrite S1 in T. assert (S2 := stiff_ge0 N _ u Hc).
  assert (W1 := wsq_pos N (r_of p n2) (fun _ => 1%R) ltac:(lia) Hr ltac:(intros; lra)). assert (W2 := wsq_pos N (r_of p n2) u ltac:(lia) Hr PU).
  apply Rle_antisym; [apply (Rmult_le_reg_r (wsq N (r_of p n2) u)); [exact W2|lra]|apply (Rmult_le_reg_r (wsq N (r_of p n2) (fun _ => 1%R))); [exact W1|lra]].
Qed.
Lemma more_omega w w' n2 nb b u b' u' : (0 < w)%R -> (w < w')%R -> (forall k, k < N -> (0 < n2 k)%R) -> (forall k, k < N -> (0 < nb k)%R) ->
  fundamental p w dl L0 N n2 nb b u -> fundamental p w' dl L0 N n2 nb b' u' ->
  (b < b')%R /\ (b / K2 w L0 <= b' / K2 w' L0)%R /\ (b / K2 w L0 = b' / K2 w' L0 <-> uniform N n2)%R.
Proof.
  intros Hw HW HP HB FU FU'. assert (Hc := c_of_pos p dl nb N Hd HB). assert (Hr := r_of_pos p n2 N HP).
  assert (BP := fundamental_pos p dl L0 N HN Hd HL _ _ _ _ _ Hw HP HB FU). assert (KP := K2_pos w L0 Hw HL). assert (KL := K2_lt w w' L0 Hw HL HW).
  destruct (fundamental_chain _ _ _ _ _ _ _ _ _ HN Hd HP HB FU) as [_ HU]. destruct (fundamental_chain _ _ _ _ _ _ _ _ _ HN Hd HP HB FU') as [HT' _].
  assert (PU := proj1 FU). assert (Q := mode_quotient _ _ _ _ _ _ HU). assert (T := top_quotient _ _ _ _ _ u HT'). rewrite e_scal in Q, T.
  assert (W := wsq_pos N (r_of p n2) u ltac:(lia) Hr PU). assert (S := stiff_ge0 N _ u Hc).
  set (E := rsum N (fun j => e_of p n2 j * u j ^ 2)%R) in *. set (Wu := wsq N (r_of p n2) u) in *. set (St := stiff N (c_of p dl nb) u) in *. set (k := K2 w L0) in *. set (k' := K2 w' L0) in *.
  assert (IN : ((k' - k) * St <= (k * b' - k' * b) * Wu)%R).
  { replace ((k * b' - k' * b) * Wu)%R with (k * (b' * Wu) - k' * (b * Wu))%R by ring. rewrite <- Q. assert (X : (k * (k' * E - St) <= k * (b' * Wu))%R) by (apply Rmult_le_compat_l; lra). lra. }
  assert (DV : forall x y, (x / k <= y / k' <-> k' * x <= k * y)%R).
  { intros x y. split; intro H.
    - apply (Rmult_le_compat_l (k * k')) in H; [|apply Rmult_le_pos; lra]. replace (k * k' * (x / k))%R with (k' * x)%R in H by (field; lra). replace (k * k' * (y / k'))%R with (k * y)%R in H by (field; lra). exact H.
    - apply (Rmult_le_reg_l (k * k')); [apply Rmult_lt_0_compat; lra|]. replace (k * k' * (x / k))%R with (k' * x)%R by (field; lra). replace (k * k' * (y / k'))%R with (k * y)%R by (field; lra). exact H. }
  assert (G : (k' * b <= k * b')%R).
  { assert (X : (0 <= (k' - k) * St)%R) by (apply Rmult_le_pos; lra). assert (Y : (0 <= k * b' - k' * b)%R); [|lra]. apply (Rmult_le_reg_r Wu); [exact W|]. lra. }
  split; [|split; [apply DV; exact G|split]].
  - apply (Rmult_lt_reg_l k); [exact KP|]. eapply Rlt_le_trans; [|exact G]. apply Rmult_lt_compat_r; assumption.
  - intro EQ. assert (Y : (k * b' <= k' * b)%R).
    { replace (k' * b)%R with (k * k' * (b / k))%R by (field; lra). rewrite EQ. right. field. lra. }
    assert (Z : (k * b' - k' * b = 0)%R) by lra. rewrite Z, Rmult_0_l in IN. assert (S0 : St = 0%R).
    { apply Rle_antisym; [|exact S]. apply (Rmult_le_reg_l (k' - k)); lra. }
    assert (F := flat_uniform N _ p k n2 b u KP HP PU (stiff_zero N _ u Hc S0) HU). intros i j Hi Hj. apply (Rmult_eq_reg_l k); [|lra]. rewrite (F i Hi), (F j Hj). reflexivity.
  - intro HUn. rewrite (uniform_constant _ _ _ _ _ HP HB HUn FU), (uniform_constant _ _ _ _ _ HP HB HUn FU'). fold k k'. field. lra.
Qed.
End Line2.

(** ** First-order estimate of a change of the permittivity, Ez *)
Lemma perturbed dl L0 N omega n2 nb n2' nb' b u b' u' : 2 <= N -> (0 < dl)%R -> (forall k, k < N -> (0 < n2 k)%R) -> (forall k, k < N -> (0 < nb k)%R) -> (forall k, k < N -> (0 < n2' k)%R) -> (forall k, k < N -> (0 < nb' k)%R) ->
  fundamental "Ez" omega dl L0 N n2 nb b u -> fundamental "Ez" omega dl L0 N n2' nb' b' u' ->
  (K2 omega L0 * rsum N (fun k => (n2' k - n2 k) * u k ^ 2) <= (b' - b) * rsum N (fun k => u k ^ 2))%R.
Proof.
  intros HN Hd HP HB HP' HB' FU FU'. destruct (fundamental_chain _ _ _ _ _ _ _ _ _ HN Hd HP HB FU) as [_ HU]. destruct (fundamental_chain _ _ _ _ _ _ _ _ _ HN Hd HP' HB' FU') as [HT' _].
  assert (Q := mode_quotient _ _ _ _ _ _ HU). assert (T := top_quotient _ _ _ _ _ u HT'). rewrite e_scal in Q, T.
  unfold e_of, wsq, r_of in Q, T. change (String.eqb "Ez" "Ez") with true in Q, T. cbv iota in Q, T.
  change (stiff N (c_of "Ez" dl nb') u) with (stiff N (c_of "Ez" dl nb) u) in T.
  assert (E : rsum N (fun j => 1 * u j ^ 2)%R = rsum N (fun j => u j ^ 2)%R) by (apply rsum_ext; intros; ring). rewrite E in Q, T.
  rewrite (rsum_ext N (fun k => (n2' k - n2 k) * u k ^ 2)%R (fun k => n2' k * u k ^ 2 - n2 k * u k ^ 2)%R) by (intros; ring). rewrite rsum_minus. lra.
Qed.

(** ** Mirror image of a line: pixel k goes to N-1-k *)
Lemma mirror_next N k : k < N -> N - 1 - next N k = prev N (N - 1 - k).
Proof. intro H. unfold next. destruct (Nat.eqb_spec (S k) N) as [E|E]; [replace (N - 1 - k) with 0 by lia; cbn [prev]; lia|]. replace (N - 1 - k) with (S (N - 1 - S k)) by lia. reflexivity. Qed.
Lemma mirror_prev N k : k < N -> N - 1 - prev N k = next N (N - 1 - k).
Proof. intro H. unfold next. destruct k as [|k]; cbn [prev]; destruct (Nat.eqb_spec (S (N - 1 - 0)) N); destruct (Nat.eqb_spec (S (N - 1 - S k)) N) || idtac; try lia. Qed.
Definition symmetric (N : nat) (f : nat -> R) : Prop := forall k, k < N -> f (N - 1 - k) = f k.
Lemma line_mode_mirror p omega dl L0 N n2 nb b u : symmetric N n2 -> (forall k, k < N -> nb (next N (N - 1 - k)) = nb k) -> line_mode p omega dl L0 N n2 nb b u -> line_mode p omega dl L0 N n2 nb b (fun k => u (N - 1 - k)).
Proof.
  intros HS HB H k Hk. assert (Hm : N - 1 - k < N) by lia. specialize (H _ Hm). cbv zeta in *. rewrite mirror_next, mirror_prev by exact Hk. rewrite (HS k Hk), (HB k Hk) in H.
  assert (B' := HB _ Hm). replace (N - 1 - (N - 1 - k)) with k in B' by lia. rewrite <- B' in H. rewrite <- H. unfold Cdiv. destruct (String.eqb p "Ez"); ring.
Qed.
Lemma fundamental_mirror p omega dl L0 N n2 nb b u : 2 <= N -> symmetric N n2 -> (forall k, k < N -> nb (next N (N - 1 - k)) = nb k) -> fundamental p omega dl L0 N n2 nb b u -> symmetric N u.
Proof.
  intros HN HS HB (PU & LM & MX). assert (LM' := line_mode_mirror _ _ _ _ _ _ _ _ _ HS HB LM). cbv beta in LM'.
  destruct (MX _ _ LM') as (x & EX & _ & UZ). { exists 0. split; [lia|]. apply RtoC_neq0. assert (Q := PU (N - 1 - 0) ltac:(lia)). lra. }
  apply (f_equal Re) in EX. cbn [Re RtoC fst] in EX. destruct (UZ (eq_sym EX)) as (z & HZ).
  assert (R : forall k, k < N -> u (N - 1 - k) = (Re z * u k)%R). { intros k Hk. assert (Q := f_equal Re (HZ k Hk)). destruct z. cbn in Q. cbn. rewrite Q. ring. }
  assert (SP : (0 < rsum N u)%R). { apply Rlt_le_trans with (u O); [apply PU; lia|]. apply (rsum_term_le N u 0); [intros k Hk; apply Rlt_le, PU; exact Hk|lia]. }
  assert (S := rsum_rev N u). rewrite (rsum_ext N (fun k => u (N - 1 - k)) (fun k => Re z * u k)%R R), rsum_scal in S.
  assert (Z : Re z = 1%R). { apply (Rmult_eq_reg_r (rsum N u)); lra. } intros k Hk. rewrite (R k Hk), Z. ring.
Qed.
Lemma between_mirror m N n2 : md_normal m <> "x"%string -> symmetric N n2 -> forall k, k < N -> between m N n2 (next N (N - 1 - k)) = between m N n2 k.
Proof.
  intros HX HS k Hk. unfold between. rewrite (proj2 (String.eqb_neq _ _) HX). rewrite prev_next by lia. rewrite <- mirror_prev by exact Hk. rewrite (HS k Hk), (HS _ (prev_lt N k Hk)). lra.
Qed.
(** interfaces taken from the pixel itself: a symmetric profile on a symmetric line is constant *)
Lemma symmetric_profile_flat omega dl L0 N n2 b u : 2 <= N -> (0 < dl)%R -> (0 < omega)%R -> (0 < L0)%R -> (forall k, k < N -> (0 < n2 k)%R) -> symmetric N n2 -> symmetric N u -> fundamental "Hz" omega dl L0 N n2 n2 b u -> uniform N n2.
Proof.
  intros HN Hd Hw HL HP HS HU FU. destruct (fundamental_chain _ _ _ _ _ _ _ _ _ HN Hd HP HP FU) as [_ HM]. destruct FU as (PU & _ & _). assert (KP := K2_pos omega L0 Hw HL). assert (D2 : (0 < dl ^ 2)%R) by (apply pow_lt; exact Hd).
  set (c := fun k => (/ n2 k)%R). set (D := fun k => (u k - u (prev N k))%R). set (K := (K2 omega L0 * dl ^ 2)%R). set (B := (b * dl ^ 2)%R).
  assert (EQ : forall k, k < N -> (K * u k + c (next N k) * D (next N k) - c k * D k = B * c k * u k)%R).
  { intros k Hk. assert (Q := HM k Hk). unfold chain, c_of, d_of, r_of in Q. change (String.eqb "Hz" "Ez") with false in Q. cbv iota in Q. unfold D, c, K, B. rewrite prev_next by exact Hk.
    assert (P1 := HP k Hk). assert (P2 := HP _ (next_lt N k Hk)). rewrite !Rinv_mult in Q. apply (Rmult_eq_compat_r (dl ^ 2)) in Q. replace (b * / n2 k * u k * dl ^ 2)%R with (b * dl ^ 2 * / n2 k * u k)%R in Q by ring. rewrite <- Q. field. repeat split; lra. }
  assert (DM : forall k, k < N -> D (N - 1 - k) = (- D (next N k))%R).
  { intros k Hk. unfold D. rewrite prev_next by exact Hk. rewrite <- mirror_next by exact Hk. rewrite (HU k Hk), (HU _ (next_lt N k Hk)). ring. }
  assert (DN : forall k, k < N -> D (next N (N - 1 - k)) = (- D k)%R).
  { intros k Hk. unfold D. rewrite prev_next by lia. rewrite <- mirror_prev by exact Hk. rewrite (HU k Hk), (HU _ (prev_lt N k Hk)). ring. }
  assert (CM : forall k, k < N -> c (N - 1 - k) = c k) by (intros k Hk; unfold c; rewrite (HS k Hk); reflexivity).
  assert (CN : forall k, k < N -> c (next N (N - 1 - k)) = c (prev N k)). { intros k Hk. rewrite <- mirror_prev by exact Hk. apply CM. apply prev_lt. exact Hk. }
  assert (ST : forall k, k < N -> ((c (next N k) - c k) * D (next N k) = (c k - c (prev N k)) * D k)%R).
  { intros k Hk. assert (Q := EQ k Hk). assert (Q' := EQ (N - 1 - k) ltac:(lia)). rewrite (DM k Hk), (DN k Hk), (CM k Hk), (CN k Hk), (HU k Hk) in Q'. lra. }
  assert (J : forall k, k < N -> ((c k - c (prev N k)) * D k = 0)%R).
  { induction k as [|k IH]; intro Hk.
    - cbn [prev]. assert (E : D 0 = 0%R). { unfold D. cbn [prev]. assert (Q := HU 0 Hk). replace (N - 1 - 0) with (N - 1) in Q by lia. lra. } rewrite E. ring.
    - specialize (IH ltac:(lia)). assert (Q := ST k ltac:(lia)). rewrite IH in Q. unfold next in Q. destruct (Nat.eqb_spec (S k) N); [lia|]. exact Q. }
  assert (J' : forall k, k < N -> ((c (next N k) - c k) * D (next N k) = 0)%R) by (intros k Hk; rewrite (ST k Hk); apply J; exact Hk).
  assert (CP : forall k, k < N -> (n2 k * c k = 1)%R) by (intros k Hk; unfold c; apply Rinv_r; assert (Q := HP k Hk); lra).
  (* the same equation without the permittivity between the differences *)
  assert (PL : forall k, k < N -> (K * n2 k * u k + D (next N k) - D k = B * u k)%R).
  { intros k Hk. assert (Q := EQ k Hk). assert (X := J' k Hk). assert (Y := CP k Hk).
    assert (Z : (n2 k * (c (next N k) * D (next N k)) = D (next N k))%R). { replace (c (next N k) * D (next N k))%R with (c k * D (next N k))%R by lra. rewrite <- Rmult_assoc, Y. ring. }
    apply (Rmult_eq_compat_l (n2 k)) in Q. replace (n2 k * (B * c k * u k))%R with (B * u k * (n2 k * c k))%R in Q by ring. rewrite Y in Q.
    replace (n2 k * (K * u k + c (next N k) * D (next N k) - c k * D k))%R with (K * n2 k * u k + n2 k * (c (next N k) * D (next N k)) - n2 k * c k * D k)%R in Q by ring. rewrite Z, Y in Q. lra. }
  assert (S1 : rsum N (fun k => (B - K * n2 k) * u k)%R = 0%R).
  { rewrite (rsum_ext N _ (fun k => D (next N k) - D k)%R) by (intros k Hk; assert (Q := PL k Hk); lra). rewrite rsum_minus, (rsum_next N D). ring. }
  assert (S2 : rsum N (fun k => (B - K * n2 k) * (c k * u k))%R = 0%R).
  { rewrite (rsum_ext N _ (fun k => c (next N k) * D (next N k) - c k * D k)%R).
    - rewrite rsum_minus, (rsum_next N (fun k => c k * D k)%R). ring.
    - intros k Hk. assert (Q := EQ k Hk). assert (Y := CP k Hk). replace ((B - K * n2 k) * (c k * u k))%R with (B * c k * u k - K * u k * (n2 k * c k))%R by ring. rewrite Y, <- Q. ring. }
  assert (S3 : rsum N (fun k => (B - K * n2 k) ^ 2 * (c k * u k))%R = 0%R).
  { rewrite (rsum_ext N _ (fun k => B * ((B - K * n2 k) * (c k * u k)) - K * ((B - K * n2 k) * u k))%R).
    - rewrite rsum_minus, !rsum_scal, S1, S2. ring.
    - intros k Hk. assert (Y := CP k Hk). replace ((B - K * n2 k) ^ 2 * (c k * u k))%R with (B * ((B - K * n2 k) * (c k * u k)) - K * ((B - K * n2 k) * (u k * (n2 k * c k))))%R by ring. rewrite Y. ring. }
  assert (FL : forall k, k < N -> (K * n2 k = B)%R).
  { intros k Hk. assert (P : forall j, j < N -> (0 < c j * u j)%R) by (intros j Hj; apply Rmult_lt_0_compat; [apply Rinv_0_lt_compat, HP; exact Hj|apply PU; exact Hj]).
    assert (Q := rsum_term_le N (fun k => (B - K * n2 k) ^ 2 * (c k * u k))%R k (fun j Hj => Rmult_le_pos _ _ (pow2_ge_0 _) (Rlt_le _ _ (P j Hj))) Hk). cbv beta in Q. rewrite S3 in Q.
    assert (Z : ((B - K * n2 k) ^ 2 = 0)%R). { apply Rle_antisym; [|apply pow2_ge_0]. apply (Rmult_le_reg_r (c k * u k)); [apply P; exact Hk|]. lra. }
    replace ((B - K * n2 k) ^ 2)%R with (Rsqr (B - K * n2 k)) in Z by (unfold Rsqr; ring). apply Rsqr_0_uniq in Z. lra. }
  intros i j Hi Hj. assert (KP' : (0 < K)%R) by (apply Rmult_lt_0_compat; assumption). apply (Rmult_eq_reg_l K); [|lra]. rewrite (FL i Hi), (FL j Hj). reflexivity.
Qed.

(** ** C120 *)
(** A mode source of order 1 was inserted on a line of N pixels of a new simulation, with a guess of the effective index at or above every index on the line. *)
Definition first_mode (e : env) lam omega eps dl np p L0 s m c lo N src : Prop :=
  eigs_nearest e lam /\ Simulation omega eps dl np p L0 = Ok s /\ (0 < dl)%R /\ line_of m (nd_nx eps) (nd_ny eps) c lo N /\ 2 <= N /\
  (forall k, k < N -> (0 < on_pixel m c lo eps k <= md_neff m ^ 2)%R) /\ md_order m = 1 /\ insert_mode e m s (s_src s) = Ok src.
(** The source on the line is a multiple of the fundamental mode u, with b the square of its propagation constant. *)
Definition writes (p : string) (omega dl L0 : R) (m : mode) (c lo N : nat) (eps : nd R) (src : nd C) (b : R) (u : nat -> R) : Prop :=
  fundamental p omega dl L0 N (on_pixel m c lo eps) (between m N (on_pixel m c lo eps)) b u /\ exists q, forall k, k < N -> on_pixel m c lo src k = RtoC (q * u k).
Lemma first_writes e lam omega eps dl np p L0 s m c lo N src : first_mode e lam omega eps dl np p L0 s m c lo N src ->
  (exists b u, writes p omega dl L0 m c lo N eps src b u) /\ (0 < dl)%R /\ (0 < omega)%R /\ (0 < L0)%R /\ 2 <= N /\ (forall k, k < N -> (0 < on_pixel m c lo eps k)%R) /\ (forall k, k < N -> (0 < between m N (on_pixel m c lo eps) k)%R).
Proof.
  intros (HE & HS & Hd & HL & HN & HM & HO & HI). destruct (C118_fundamental _ _ _ _ _ _ _ _ _ _ _ _ _ _ HE HS Hd HL HN HM HO HI) as (b & u & q & FU & WR & _).
  assert (HP : forall k, k < N -> (0 < on_pixel m c lo eps k)%R) by (intros k Hk; apply HM; exact Hk). destruct (pol_slot _ _ _ _ _ _ _ HS) as (_ & L0p & Wp).
  split; [exists b, u; split; [exact FU|exists q; exact WR]|]. repeat (split; [assumption|]). apply between_pos. exact HP.
Qed.

(** b belongs to the line, not to the eigensolver. *)
Theorem C120_constant_of_the_line : forall e1 e2 lam1 lam2 omega eps dl np1 np2 p L0 s1 s2 m1 m2 c lo N src1 src2,
  first_mode e1 lam1 omega eps dl np1 p L0 s1 m1 c lo N src1 -> first_mode e2 lam2 omega eps dl np2 p L0 s2 m2 c lo N src2 -> md_normal m1 = md_normal m2 ->
  exists b u, writes p omega dl L0 m1 c lo N eps src1 b u /\ writes p omega dl L0 m2 c lo N eps src2 b u /\
    forall b' u', writes p omega dl L0 m1 c lo N eps src1 b' u' -> b' = b.
Proof.
  intros e1 e2 lam1 lam2 omega eps dl np1 np2 p L0 s1 s2 m1 m2 c lo N src1 src2 F1 F2 HX. apply first_writes in F1 as ((b1 & u1 & FU1 & WR1) & Hd & Hw & HL & HN & HP1 & HB1). apply first_writes in F2 as ((b2 & u2 & FU2 & q2 & WR2) & _ & _ & _ & _ & HP2 & HB2).
  assert (OP : forall T (a : nd T), on_pixel m2 c lo a = on_pixel m1 c lo a) by (intros; unfold on_pixel; rewrite HX; reflexivity). assert (BE : forall n, between m2 N n = between m1 N n) by (intros; unfold between; rewrite HX; reflexivity).
  rewrite OP, BE in FU2. destruct (fundamental_unique _ _ _ _ _ _ _ _ _ _ _ HN FU1 FU2) as (EB & t & Ht & HT). exists b1, u1. split; [split; assumption|]. split.
  - split; [rewrite OP, BE; exact FU1|]. exists (q2 * t)%R. intros k Hk. rewrite (WR2 k Hk), (HT k Hk). f_equal. ring.
  - intros b' u' [FU' _]. destruct (fundamental_unique _ _ _ _ _ _ _ _ _ _ _ HN FU1 FU') as (E & _). symmetry. exact E.
Qed.

(** More permittivity on the line, larger propagation constant: equal only for equal lines. *)
Theorem C120_more_permittivity : forall e1 e2 lam1 lam2 omega eps1 eps2 dl np1 np2 p L0 s1 s2 m1 m2 c1 c2 lo1 lo2 N src1 src2,
  first_mode e1 lam1 omega eps1 dl np1 p L0 s1 m1 c1 lo1 N src1 -> first_mode e2 lam2 omega eps2 dl np2 p L0 s2 m2 c2 lo2 N src2 -> md_normal m1 = md_normal m2 ->
  (forall k, k < N -> (on_pixel m1 c1 lo1 eps1 k <= on_pixel m2 c2 lo2 eps2 k)%R) ->
  exists b1 u1 b2 u2, writes p omega dl L0 m1 c1 lo1 N eps1 src1 b1 u1 /\ writes p omega dl L0 m2 c2 lo2 N eps2 src2 b2 u2 /\
    (b1 <= b2)%R /\ (b1 = b2 <-> forall k, k < N -> on_pixel m1 c1 lo1 eps1 k = on_pixel m2 c2 lo2 eps2 k).
Proof.
  intros e1 e2 lam1 lam2 omega eps1 eps2 dl np1 np2 p L0 s1 s2 m1 m2 c1 c2 lo1 lo2 N src1 src2 F1 F2 HX LE.
  apply first_writes in F1 as ((b1 & u1 & W1) & Hd & Hw & HL & HN & HP1 & HB1). apply first_writes in F2 as ((b2 & u2 & W2) & _ & _ & _ & _ & HP2 & HB2).
  exists b1, u1, b2, u2. split; [exact W1|]. split; [exact W2|]. destruct W1 as [FU1 _]. destruct W2 as [FU2 _]. set (n1 := on_pixel m1 c1 lo1 eps1) in *. set (n2 := on_pixel m2 c2 lo2 eps2) in *.
  assert (BE : forall n, between m2 N n = between m1 N n) by (intros; unfold between; rewrite HX; reflexivity). rewrite BE in FU2.
  assert (LB : forall k, k < N -> (between m1 N n1 k <= between m1 N n2 k)%R). { intros k Hk. unfold between. assert (A := LE k Hk). assert (B := LE _ (prev_lt N k Hk)). destruct (String.eqb (md_normal m1) "x"); lra. }
  destruct (more_eps p dl L0 N HN Hd HL omega n1 _ n2 _ b1 u1 b2 u2 Hw HP1 HB1 LE LB FU1 FU2) as [G1 G2]. split; [exact G1|]. split.
  - intros EB k Hk. destruct (Rle_lt_or_eq_dec _ _ (LE k Hk)) as [LT|E]; [|exact E]. assert (Q := G2 (ex_intro _ k (conj Hk LT))). lra.
  - intro EN. assert (LE' : forall k, k < N -> (n2 k <= n1 k)%R) by (intros k Hk; rewrite (EN k Hk); lra).
    assert (LB' : forall k, k < N -> (between m1 N n2 k <= between m1 N n1 k)%R). { intros k Hk. rewrite (between_ext m1 N n1 n2 EN k Hk). lra. }
    rewrite <- BE in LB'. assert (HB2' : forall k, k < N -> (0 < between m1 N n2 k)%R) by (intros k Hk; rewrite <- BE; apply HB2; exact Hk). rewrite BE in LB'.
    destruct (more_eps p dl L0 N HN Hd HL omega n2 _ n1 _ b2 u2 b1 u1 Hw HP2 HB2' LE' LB' FU2 FU1) as [G3 _]. lra.
Qed.

(** Higher frequency, larger propagation constant and larger effective index; the effective index stays the same only on a uniform line.
    b / (omega^2 mu_0 eps_0), in the units of the simulation, is the square of the effective index. *)
Theorem C120_effective_index_grows : forall e1 e2 lam1 lam2 omega1 omega2 eps dl np1 np2 p L0 s1 s2 m1 m2 c lo N src1 src2,
  first_mode e1 lam1 omega1 eps dl np1 p L0 s1 m1 c lo N src1 -> first_mode e2 lam2 omega2 eps dl np2 p L0 s2 m2 c lo N src2 -> md_normal m1 = md_normal m2 -> (omega1 < omega2)%R ->
  exists b1 u1 b2 u2, writes p omega1 dl L0 m1 c lo N eps src1 b1 u1 /\ writes p omega2 dl L0 m2 c lo N eps src2 b2 u2 /\ (b1 < b2)%R /\
    let index2 := fun omega b => (b / (omega ^ 2 * (MU_0 * L0) * (EPSILON_0 * L0)))%R in
    (index2 omega1 b1 <= index2 omega2 b2)%R /\ (index2 omega1 b1 = index2 omega2 b2 <-> forall j k, j < N -> k < N -> on_pixel m1 c lo eps j = on_pixel m1 c lo eps k).
Proof.
  intros e1 e2 lam1 lam2 omega1 omega2 eps dl np1 np2 p L0 s1 s2 m1 m2 c lo N src1 src2 F1 F2 HX LT.
  apply first_writes in F1 as ((b1 & u1 & W1) & Hd & Hw & HL & HN & HP1 & HB1). apply first_writes in F2 as ((b2 & u2 & W2) & _ & _ & _ & _ & HP2 & HB2).
  exists b1, u1, b2, u2. split; [exact W1|]. split; [exact W2|]. destruct W1 as [FU1 _]. destruct W2 as [FU2 _].
  assert (OP : on_pixel m2 c lo eps = on_pixel m1 c lo eps) by (unfold on_pixel; rewrite HX; reflexivity). assert (BE : forall n, between m2 N n = between m1 N n) by (intros; unfold between; rewrite HX; reflexivity). rewrite OP, BE in FU2.
  exact (more_omega p dl L0 N HN Hd HL omega1 omega2 _ _ b1 u1 b2 u2 Hw LT HP1 HB1 FU1 FU2).
Qed.

(** Ez: the change of b lies between the two first-order estimates, taken with the old and with the new mode; b is continuous in the permittivity. *)
Theorem C120_first_order : forall e1 e2 lam1 lam2 omega eps1 eps2 dl np1 np2 L0 s1 s2 m1 m2 c1 c2 lo1 lo2 N src1 src2,
  first_mode e1 lam1 omega eps1 dl np1 "Ez" L0 s1 m1 c1 lo1 N src1 -> first_mode e2 lam2 omega eps2 dl np2 "Ez" L0 s2 m2 c2 lo2 N src2 ->
  let k2 := (omega ^ 2 * (MU_0 * L0) * (EPSILON_0 * L0))%R in let change := fun k => (on_pixel m2 c2 lo2 eps2 k - on_pixel m1 c1 lo1 eps1 k)%R in
  exists b1 u1 b2 u2, writes "Ez" omega dl L0 m1 c1 lo1 N eps1 src1 b1 u1 /\ writes "Ez" omega dl L0 m2 c2 lo2 N eps2 src2 b2 u2 /\
    (k2 * rsum N (fun k => change k * u1 k ^ 2) <= (b2 - b1) * rsum N (fun k => u1 k ^ 2))%R /\
    ((b2 - b1) * rsum N (fun k => u2 k ^ 2) <= k2 * rsum N (fun k => change k * u2 k ^ 2))%R /\
    forall delta, (forall k, k < N -> (Rabs (change k) <= delta)%R) -> (Rabs (b2 - b1) <= k2 * delta)%R.
Proof.
  intros e1 e2 lam1 lam2 omega eps1 eps2 dl np1 np2 L0 s1 s2 m1 m2 c1 c2 lo1 lo2 N src1 src2 F1 F2 k2 change.
  apply first_writes in F1 as ((b1 & u1 & W1) & Hd & Hw & HL & HN & HP1 & HB1). apply first_writes in F2 as ((b2 & u2 & W2) & _ & _ & _ & _ & HP2 & HB2).
  exists b1, u1, b2, u2. split; [exact W1|]. split; [exact W2|]. destruct W1 as [FU1 _]. destruct W2 as [FU2 _]. set (n1 := on_pixel m1 c1 lo1 eps1) in *. set (n2 := on_pixel m2 c2 lo2 eps2) in *.
  assert (KP := K2_pos omega L0 Hw HL). change (K2 omega L0) with k2 in KP.
  assert (G1 := perturbed dl L0 N omega n1 _ n2 _ b1 u1 b2 u2 HN Hd HP1 HB1 HP2 HB2 FU1 FU2). assert (G2 := perturbed dl L0 N omega n2 _ n1 _ b2 u2 b1 u1 HN Hd HP2 HB2 HP1 HB1 FU2 FU1). change (K2 omega L0) with k2 in G1, G2.
  assert (G2' : ((b2 - b1) * rsum N (fun k => u2 k ^ 2) <= k2 * rsum N (fun k => change k * u2 k ^ 2))%R).
  { rewrite (rsum_ext N (fun k => (n1 k - n2 k) * u2 k ^ 2)%R (fun k => - (change k * u2 k ^ 2))%R) in G2 by (intros; unfold change; fold n1 n2; ring). rewrite rsum_opp in G2. lra. }
  split; [exact G1|]. split; [exact G2'|]. intros delta HD.
  assert (SQ : forall u, (forall k, k < N -> (0 < u k)%R) -> (0 < rsum N (fun k => u k ^ 2))%R). { intros u Hu. apply (rsum_sq_pos N u 0); [lia|]. assert (Q := Hu 0 ltac:(lia)). lra. }
  assert (S1 := SQ u1 (proj1 FU1)). assert (S2 := SQ u2 (proj1 FU2)). apply Rabs_le. split.
  - apply (Rmult_le_reg_r (rsum N (fun k => u1 k ^ 2)%R)); [exact S1|]. eapply Rle_trans; [|exact G1]. replace (- (k2 * delta) * rsum N (fun k => u1 k ^ 2))%R with (k2 * (- delta * rsum N (fun k => u1 k ^ 2)))%R by ring.
    apply Rmult_le_compat_l; [lra|]. rewrite <- rsum_scal. apply rsum_le. intros k Hk. apply Rmult_le_compat_r; [apply pow2_ge_0|]. assert (Q := HD k Hk). apply Rabs_le_between in Q. unfold change in Q. fold n1 n2 in Q. lra.
  - apply (Rmult_le_reg_r (rsum N (fun k => u2 k ^ 2)%R)); [exact S2|]. eapply Rle_trans; [exact G2'|]. rewrite Rmult_assoc.
    apply Rmult_le_compat_l; [lra|]. rewrite <- rsum_scal. apply rsum_le. intros k Hk. apply Rmult_le_compat_r; [apply pow2_ge_0|]. assert (Q := HD k Hk). apply Rabs_le_between in Q. lra.
Qed.

(** A symmetric cross-section has a symmetric source, in Ez and, for normal y, in Hz. *)
Theorem C120_symmetric_source_partial : forall e lam omega eps dl np p L0 s m c lo N src, first_mode e lam omega eps dl np p L0 s m c lo N src -> p = "Ez"%string \/ md_normal m = "y"%string ->
  (forall k, k < N -> on_pixel m c lo eps (N - 1 - k) = on_pixel m c lo eps k) -> forall k, k < N -> on_pixel m c lo src (N - 1 - k) = on_pixel m c lo src k.
Proof.
  intros e lam omega eps dl np p L0 s m c lo N src F HC HSy k Hk. apply first_writes in F as ((b & u & FU & q & WR) & Hd & Hw & HL & HN & HP & HB).
  assert (SU : symmetric N u).
  { destruct HC as [-> | HY].
    - assert (FU' : fundamental "Ez" omega dl L0 N (on_pixel m c lo eps) (fun _ => 1%R) b u) by exact FU. exact (fundamental_mirror _ _ _ _ _ _ (fun _ => 1%R) _ _ HN HSy (fun _ _ => eq_refl) FU').
    - apply (fundamental_mirror _ _ _ _ _ _ _ _ _ HN HSy (between_mirror m N _ ltac:(rewrite HY; discriminate) HSy) FU). }
  rewrite (WR (N - 1 - k)), (WR k) by lia. rewrite (SU k Hk). reflexivity.
Qed.
(** For normal x in Hz the permittivity between two pixels is not averaged, and the symmetric cross-section has a symmetric source only if it is uniform. *)
Theorem C120_Hz_x_symmetric_iff_uniform : forall e lam omega eps dl np L0 s m c lo N src, first_mode e lam omega eps dl np "Hz" L0 s m c lo N src -> md_normal m = "x"%string ->
  (exists k, k < N /\ on_pixel m c lo src k <> RtoC 0) -> (forall k, k < N -> on_pixel m c lo eps (N - 1 - k) = on_pixel m c lo eps k) ->
  (forall k, k < N -> on_pixel m c lo src (N - 1 - k) = on_pixel m c lo src k) <-> (forall j k, j < N -> k < N -> on_pixel m c lo eps j = on_pixel m c lo eps k).
Proof.
  intros e lam omega eps dl np L0 s m c lo N src F HX (k0 & Hk0 & NZ) HSy. apply first_writes in F as ((b & u & FU & q & WR) & Hd & Hw & HL & HN & HP & HB).
  assert (BE : between m N (on_pixel m c lo eps) = on_pixel m c lo eps) by (unfold between; rewrite HX; reflexivity). rewrite BE in FU.
  assert (Nq : q <> 0%R). { intro Z. apply NZ. rewrite (WR k0 Hk0), Z, Rmult_0_l. reflexivity. } split.
  - intro HU. apply (symmetric_profile_flat omega dl L0 N _ b u HN Hd Hw HL HP HSy); [|exact FU]. intros k Hk. assert (Q := HU k Hk). rewrite !WR in Q by lia. apply (f_equal Re) in Q. cbn [Re RtoC fst] in Q. apply (Rmult_eq_reg_l q); assumption.
  - intros HUn k Hk. assert (SU := fundamental_mirror _ _ _ _ N _ _ _ _ HN HSy (fun k Hk => HUn _ _ (next_lt N (N - 1 - k) ltac:(lia)) Hk) FU). rewrite !WR by lia. rewrite (SU k Hk). reflexivity.
Qed.

(** ** The hypotheses are met *)
Lemma near_line p omega eps dl np L0 s m (L : nd R) N n2 : Simulation omega eps dl np p L0 = Ok s -> (0 < dl)%R -> 2 <= N -> nd_size L = N -> (if String.eqb (md_normal m) "x" then nd_nx L = 1 else nd_ny L = 1) ->
  (forall k, k < N -> nd_buf L k = n2 k) -> (forall k, k < N -> (0 < n2 k <= md_neff m ^ 2)%R) ->
  exists v lm, e_eigs (near_env v lm) N (mode_matrix s L) 1 (beta2 m s) = Ok v /\ (forall k, k < N -> exists r, v k = RtoC r /\ (0 < r)%R).
Proof.
  intros HS Hd HN LS LX LB HM. assert (HP : forall k, k < N -> (0 < n2 k)%R) by (intros k Hk; apply HM; exact Hk). assert (HB := between_pos m N n2 HP).
  destruct (C118_fundamental_exists p omega dl L0 N n2 (between m N n2) (md_neff m ^ 2) HN Hd HM HB) as (b & u & (UP & UM & UT) & LE & _). fold (K2 omega L0) in LE.
  assert (MM := fun lm w => matrix_mode omega eps dl _ p L0 s m L N n2 lm w HS Hd HN LS LX LB HP).
  set (S := rsum N (fun k => u k ^ 2)%R). assert (U0 := UP 0 ltac:(lia)).
  assert (SP : (0 < S)%R) by (apply (rsum_sq_pos N u 0); [lia|lra]). assert (QP := sqrt_lt_R0 S SP).
  set (v := fun k => RtoC (/ sqrt S * u k)). exists v, (RtoC b). split.
  - cbn [near_env e_eigs]. destruct (excluded_middle_informative _) as [|Q]; [reflexivity|]. exfalso. apply Q. split; [split|].
    + apply MM. apply (line_mode_scal _ _ _ _ _ _ _ _ (fun k => RtoC (u k)) _ (RtoC (/ sqrt S))); [|exact UM]. intros k Hk. apply RtoC_mult.
    + rewrite (rsum_ext N _ (fun k => (/ sqrt S) ^ 2 * u k ^ 2)%R) by (intros k Hk; unfold v; rewrite Cmod_R, pow2_abs; ring). rewrite rsum_scal. fold S. rewrite pow_inv, <- Rsqr_pow2, Rsqr_sqrt by lra. field. lra.
    + intros mu w NW HW. apply MM in HW. destruct (UT mu w HW NW) as (x & -> & XB & _). destruct (fresh_slots _ _ _ _ _ _ _ HS) as (_ & _ & _ & _ & _ & _ & SO & SL & _). destruct (pol_slot _ _ _ _ _ _ _ HS) as (_ & L0p & _).
      rewrite (beta2_K2 m s omega L0 SO SL) by exact L0p. rewrite <- !RtoC_minus, !Cmod_R. rewrite !Rabs_left1 by lra. lra.
  - intros k Hk. exists (/ sqrt S * u k)%R. split; [reflexivity|]. apply Rmult_lt_0_compat; [apply Rinv_0_lt_compat; exact QP|apply UP; exact Hk].
Qed.
(** a guide along x, three pixels wide, crossed by a mode source *)
Lemma three_wide p omega n2 : p = "Ez"%string \/ p = "Hz"%string -> (0 < omega)%R -> (forall k, k < 3 -> (0 < n2 k <= 4)%R) ->
  exists e lam s src, first_mode e lam omega (mkNd 6 3 (guide3 n2)) 1 (Some [0; 0]%Z) p 1 s (across_at 2) 2 0 3 src /\ (forall k, k < 3 -> on_pixel (across_at 2) 2 0 src k <> RtoC 0) /\
    (forall A o r v, e_eigs e 3 A o r = Ok v -> one_phase 3 v).
Proof.
  intros Hp Hw HM. set (eps := mkNd 6 3 (guide3 n2)).
  assert (HS : exists s, Simulation omega eps 1 (Some [0; 0]%Z) p 1 = Ok s).
  { unfold Simulation, check_inputs. destruct (Rlt_dec 0 1); [|lra]. destruct (Rlt_dec 0 omega); [|contradiction]. destruct Hp as [-> | ->]; eexists; reflexivity. }
  destruct HS as [s HS]. destruct (fresh_slots _ _ _ _ _ _ _ HS) as (SX & SY & Z0 & SE & SNx & SNy & _).
  set (L := nd_slice (s_eps s) 2 3 0 3).
  assert (LS : nd_size L = 3) by (unfold L; rewrite SE; reflexivity). assert (LX : nd_nx L = 1) by (unfold L; rewrite SE; reflexivity).
  assert (LB : forall k, k < 3 -> nd_buf L k = n2 k). { intros k Hk. unfold L. rewrite SE. destruct k as [|[|[|]]]; [..|lia]; reflexivity. }
  assert (HM' : forall k, k < 3 -> (0 < n2 k <= md_neff (across_at 2) ^ 2)%R) by (intros k Hk; assert (Q := HM k Hk); cbn [across_at md_neff]; lra).
  destruct (near_line p omega eps 1 _ 1 s (across_at 2) L 3 n2 HS ltac:(lra) ltac:(lia) LS LX LB HM') as (v & lm & EE & VP).
  assert (HI : exists src, insert_mode (near_env v lm) (across_at 2) s (s_src s) = Ok src).
  { unfold insert_mode. change (line_inds (md_normal (across_at 2)) (md_center (across_at 2)) (md_width (across_at 2))) with (@Ok (Z * Z * Z * Z) (2, 3, 0, 3)%Z). cbv zeta iota. fold L. rewrite LS. cbn [Nat.eqb]. unfold beta2 in EE. change (md_order (across_at 2)) with 1.
    rewrite EE. unfold nd_assign. rewrite SX, SY. eexists. reflexivity. }
  destruct HI as (src & HI).
  destruct (column_source _ (across_at 2) s (s_src s) src 2 HI) as (L' & v' & _ & _ & EV & D1 & D2 & SRC); rewrite ?SE; try assumption; try (cbn; lia); [apply across_at_fills|]. rewrite SE in *. apply near_env_only in EV. subst v'.
  exists (near_env v lm), (fun _ _ _ _ => lm), s, src. split; [|split].
  - split; [apply near_env_nearest|]. split; [exact HS|]. split; [lra|]. split; [apply column_is_line, across_at_fills|]. split; [lia|]. split; [|split; [reflexivity|exact HI]].
    intros k Hk. change (on_pixel (across_at 2) 2 0 eps k) with (nd_at eps 2 k). unfold eps. rewrite guide3_at by exact Hk. apply HM'. exact Hk.
  - intros k Hk. change (on_pixel (across_at 2) 2 0 src k) with (nd_at src 2 k). rewrite SRC by (cbn; lia). cbn [Nat.eqb]. destruct (VP k Hk) as (r & E & R0). change (md_scale (across_at 2)) with 1%R. rewrite (real_profile v (fun _ => r) k E). apply RtoC_neq0. lra.
  - intros A o r w HW. apply near_env_only in HW. subst w. exists (RtoC 1), (fun k => Re (v k)). intros k Hk. destruct (VP k Hk) as (x & -> & _). cbn [Re RtoC fst]. ring.
Qed.
Definition core_of (x : R) (k : nat) : R := if Nat.eqb k 1 then x else 1%R.
Lemma core_bounds x : (1 <= x <= 4)%R -> forall k, k < 3 -> (0 < core_of x k <= 4)%R.
Proof. intros H k _. unfold core_of. destruct (Nat.eqb k 1); lra. Qed.
Lemma core_at x k : k < 3 -> on_pixel (across_at 2) 2 0 (mkNd 6 3 (guide3 (core_of x))) k = core_of x k.
Proof. intro Hk. change (on_pixel (across_at 2) 2 0 (mkNd 6 3 (guide3 (core_of x))) k) with (nd_at (mkNd 6 3 (guide3 (core_of x))) 2 k). apply guide3_at. exact Hk. Qed.
(** a core of permittivity 2 and a core of permittivity 3, at two frequencies, in either polarization *)
Example C120_met : forall p, p = "Ez"%string \/ p = "Hz"%string -> let eps := fun x => mkNd 6 3 (guide3 (core_of x)) in
  (exists e1 e2 e3 lam1 lam2 lam3 s1 s2 s3 src1 src2 src3,
     first_mode e1 lam1 ex_omega (eps 2%R) 1 (Some [0; 0]%Z) p 1 s1 (across_at 2) 2 0 3 src1 /\ first_mode e2 lam2 ex_omega (eps 3%R) 1 (Some [0; 0]%Z) p 1 s2 (across_at 2) 2 0 3 src2 /\
     first_mode e3 lam3 (2 * ex_omega) (eps 2%R) 1 (Some [0; 0]%Z) p 1 s3 (across_at 2) 2 0 3 src3 /\ on_pixel (across_at 2) 2 0 src1 0 <> RtoC 0) /\
  (forall k, k < 3 -> (on_pixel (across_at 2) 2 0 (eps 2%R) k <= on_pixel (across_at 2) 2 0 (eps 3%R) k)%R) /\ (on_pixel (across_at 2) 2 0 (eps 2%R) 1 < on_pixel (across_at 2) 2 0 (eps 3%R) 1)%R /\
  (forall k, k < 3 -> on_pixel (across_at 2) 2 0 (eps 2%R) (3 - 1 - k) = on_pixel (across_at 2) 2 0 (eps 2%R) k) /\ on_pixel (across_at 2) 2 0 (eps 2%R) 0 <> on_pixel (across_at 2) 2 0 (eps 2%R) 1.
Proof.
  intros p Hp eps. assert (EO := ex_omega_pos). split.
  - destruct (three_wide p ex_omega (core_of 2) Hp EO (core_bounds 2 ltac:(lra))) as (e1 & l1 & s1 & q1 & A1 & B1 & _). destruct (three_wide p ex_omega (core_of 3) Hp EO (core_bounds 3 ltac:(lra))) as (e2 & l2 & s2 & q2 & A2 & _).
    destruct (three_wide p (2 * ex_omega) (core_of 2) Hp ltac:(lra) (core_bounds 2 ltac:(lra))) as (e3 & l3 & s3 & q3 & A3 & _).
    exists e1, e2, e3, l1, l2, l3, s1, s2, s3, q1, q2, q3. repeat (split; [assumption|]). apply B1. lia.
  - unfold eps. split; [intros k Hk; rewrite !core_at by exact Hk; unfold core_of; destruct (Nat.eqb k 1); lra|]. rewrite !core_at by lia. split; [cbn; lra|]. split; [|cbn; lra].
    intros k Hk. rewrite !core_at by lia. destruct k as [|[|[|]]]; [..|lia]; reflexivity.
Qed.

(** Hence the claim is false for Hz and normal x: the source of a symmetric guide is not symmetric. *)
Theorem C120_symmetric_source_Hz_x_refuted :
  ~ (forall e lam omega eps dl np p L0 s m c lo N src, first_mode e lam omega eps dl np p L0 s m c lo N src ->
     (forall k, k < N -> on_pixel m c lo eps (N - 1 - k) = on_pixel m c lo eps k) -> forall k, k < N -> on_pixel m c lo src (N - 1 - k) = on_pixel m c lo src k).
Proof.
  intro H. destruct (C120_met "Hz" (or_intror eq_refl)) as ((e1 & _ & _ & l1 & _ & _ & s1 & _ & _ & q1 & _ & _ & F & _ & _ & NZ) & _ & _ & SY & NU). apply NU.
  apply (proj1 (C120_Hz_x_symmetric_iff_uniform e1 l1 _ _ _ _ _ s1 _ _ _ _ q1 F eq_refl (ex_intro _ 0 (conj (Nat.lt_0_succ 2) NZ)) SY)); [|lia|lia]. exact (H _ _ _ _ _ _ _ _ _ _ _ _ _ _ F SY).
Qed.

(** ** Two modes of one line *)
Lemma modes_orthogonal p omega dl L0 N n2 nb b1 b2 (u1 u2 : nat -> R) : (0 < dl)%R -> (forall k, k < N -> (0 < n2 k)%R) -> (forall k, k < N -> (0 < nb k)%R) ->
  line_mode p omega dl L0 N n2 nb b1 (fun k => RtoC (u1 k)) -> line_mode p omega dl L0 N n2 nb b2 (fun k => RtoC (u2 k)) -> b1 <> b2 -> rsum N (fun k => r_of p n2 k * (u1 k * u2 k))%R = 0%R.
Proof.
  intros Hd HP HB H1 H2 NE. assert (Hr := r_of_pos p n2 N HP). apply line_chain in H1; try assumption. apply line_chain in H2; try assumption.
  destruct (classic (exists j, j < N /\ RtoC (u1 j) <> RtoC 0)) as [X1|X1].
  2:{ apply rsum_0. intros k Hk. assert (Z : u1 k = 0%R). { apply NNPP. intro Q. apply X1. exists k. split; [exact Hk|]. apply RtoC_neq0. exact Q. } rewrite Z. ring. }
  destruct (classic (exists j, j < N /\ RtoC (u2 j) <> RtoC 0)) as [X2|X2].
  2:{ apply rsum_0. intros k Hk. assert (Z : u2 k = 0%R). { apply NNPP. intro Q. apply X2. exists k. split; [exact Hk|]. apply RtoC_neq0. exact Q. } rewrite Z. ring. }
  destruct (chain_eig_real _ _ _ _ _ _ Hr H1 X1) as (I1 & M1 & _). destruct (chain_eig_real _ _ _ _ _ _ Hr H2 X2) as (I2 & M2 & _).
  assert (Q1 := bil_mode _ _ _ _ _ (fun k => Re (RtoC (u2 k))) _ M1). assert (Q2 := bil_mode _ _ _ _ _ (fun k => Re (RtoC (u1 k))) _ M2). rewrite bil_sym in Q2. rewrite Q2 in Q1. cbn [Re RtoC fst] in Q1.
  set (S := rsum N (fun k => r_of p n2 k * (u1 k * u2 k))%R). assert (E : rsum N (fun j => r_of p n2 j * (u2 j * u1 j))%R = S) by (apply rsum_ext; intros; ring).
  assert (Q : (Re b2 * S = Re b1 * S)%R). { rewrite <- E at 2. exact Q1. }
  destruct (Req_dec S 0) as [Z|NZ]; [exact Z|]. exfalso. apply NE. apply C_ext; [|rewrite I1, I2; reflexivity]. symmetry. apply (Rmult_eq_reg_r S); assumption.
Qed.
(** Two mode sources on the same line, of any order, with eigenvectors that are real up to a phase: what they write are modes of the line, and
    if the propagation constants differ the two are orthogonal, in Hz with weight 1/permittivity. *)
Theorem C120_orthogonal : forall e1 e2 lam1 lam2 omega eps dl np p L0 s m1 m2 c lo N src1 src2,
  eigs_correct e1 lam1 -> eigs_correct e2 lam2 -> (forall A o r v, e_eigs e1 N A o r = Ok v -> one_phase N v) -> (forall A o r v, e_eigs e2 N A o r = Ok v -> one_phase N v) ->
  Simulation omega eps dl np p L0 = Ok s -> (0 < dl)%R -> md_normal m1 = md_normal m2 -> line_of m1 (nd_nx eps) (nd_ny eps) c lo N -> line_of m2 (nd_nx eps) (nd_ny eps) c lo N -> 2 <= N ->
  (forall k, k < N -> (0 < on_pixel m1 c lo eps k)%R) -> insert_mode e1 m1 s (s_src s) = Ok src1 -> insert_mode e2 m2 s (s_src s) = Ok src2 ->
  exists b1 b2 q1 q2 u1 u2, (forall k, k < N -> on_pixel m1 c lo src1 k = RtoC (q1 * u1 k)) /\ (forall k, k < N -> on_pixel m2 c lo src2 k = RtoC (q2 * u2 k)) /\
    (exists k, k < N /\ u1 k <> 0%R) /\ (exists k, k < N /\ u2 k <> 0%R) /\
    line_mode p omega dl L0 N (on_pixel m1 c lo eps) (between m1 N (on_pixel m1 c lo eps)) b1 (fun k => RtoC (u1 k)) /\ line_mode p omega dl L0 N (on_pixel m1 c lo eps) (between m1 N (on_pixel m1 c lo eps)) b2 (fun k => RtoC (u2 k)) /\
    (b1 <> b2 -> csum N (fun k => RtoC (if String.eqb p "Ez" then 1 else / on_pixel m1 c lo eps k) * (on_pixel m1 c lo src1 k * on_pixel m2 c lo src2 k))%C = RtoC 0).
Proof.
  intros e1 e2 lam1 lam2 omega eps dl np p L0 s m1 m2 c lo N src1 src2 HE1 HE2 OP1 OP2 HS Hd HX HL1 HL2 HN HP HI1 HI2.
  destruct (fresh_slots _ _ _ _ _ _ _ HS) as (SX & SY & _ & SE & _). assert (HB := between_pos m1 N _ HP).
  assert (G : forall e lam m src, eigs_correct e lam -> (forall A o r v, e_eigs e N A o r = Ok v -> one_phase N v) -> md_normal m1 = md_normal m -> line_of m (nd_nx eps) (nd_ny eps) c lo N -> insert_mode e m s (s_src s) = Ok src ->
     exists b q u, (forall k, k < N -> on_pixel m c lo src k = RtoC (q * u k)) /\ (exists k, k < N /\ u k <> 0%R) /\ line_mode p omega dl L0 N (on_pixel m1 c lo eps) (between m1 N (on_pixel m1 c lo eps)) b (fun k => RtoC (u k))).
  { clear HL1 HL2 HI1 HI2. intros e lam m src HE HO HX1 HL HI. destruct (line_written e m s (s_src s) src c lo N HI) as (L & v & LS & LX & LB & EE & WR & _); rewrite ?SE; try assumption; try lia. rewrite SE in LB.
    destruct (HE _ _ _ _ _ EE) as (EV & UN). destruct (HO _ _ _ _ EE) as (z & u & HV). destruct (unit_nonzero N v UN) as (k0 & Hk0 & NZ).
    assert (LB1 : forall k, k < N -> nd_buf L k = on_pixel m1 c lo eps k) by (intros k Hk; rewrite (LB k Hk); unfold on_pixel; rewrite HX1; reflexivity). rewrite <- HX1 in LX.
    assert (MM := proj1 (matrix_mode omega eps dl np p L0 s m1 L N _ (lam N (mode_matrix s L) (md_order m) (beta2 m s)) v HS Hd HN LS LX LB1 HP) EV).
    assert (Nz : z <> RtoC 0). { intro Z. apply NZ. rewrite (HV k0 Hk0), Z. ring. }
    destruct (profile_multiple (md_scale m) N v z u HV) as (q & HQ). eexists. exists q, u. split; [intros k Hk; rewrite (WR k Hk); apply HQ; exact Hk|]. split.
    - exists k0. split; [exact Hk0|]. intro Z. apply NZ. rewrite (HV k0 Hk0), Z. ring.
    - apply (line_mode_scal _ _ _ _ _ _ _ _ v _ (/ z)%C); [|exact MM]. intros k Hk. rewrite (HV k Hk). field. exact Nz. }
  destruct (G e1 lam1 m1 src1 HE1 OP1 eq_refl HL1 HI1) as (b1 & q1 & u1 & W1 & N1 & L1). destruct (G e2 lam2 m2 src2 HE2 OP2 HX HL2 HI2) as (b2 & q2 & u2 & W2 & N2 & L2).
  exists b1, b2, q1, q2, u1, u2. repeat (split; [assumption|]). intro NE. assert (O := modes_orthogonal _ _ _ _ _ _ _ _ _ _ _ Hd HP HB L1 L2 NE).
  transitivity (RtoC (q1 * q2 * rsum N (fun k => r_of p (on_pixel m1 c lo eps) k * (u1 k * u2 k)))%R); [|rewrite O; f_equal; ring].
  rewrite <- rsum_scal. clear - W1 W2.
  rewrite RtoC_rsum. apply csum_ext. intros k Hk. rewrite (W1 k Hk), (W2 k Hk), <- !RtoC_mult. f_equal. unfold r_of. destruct (String.eqb p "Ez"); ring.
Qed.
Example C120_orthogonal_met : exists e1 e2 lam1 lam2 s src1 src2, let eps := mkNd 6 3 (guide3 one_low) in
  eigs_correct e1 lam1 /\ eigs_correct e2 lam2 /\ (forall A o r v, e_eigs e1 3 A o r = Ok v -> one_phase 3 v) /\ (forall A o r v, e_eigs e2 3 A o r = Ok v -> one_phase 3 v) /\
  Simulation ex_omega eps 1 (Some [0; 0]%Z) "Ez" 1 = Ok s /\ md_normal (across_at 2) = md_normal across_mode /\ line_of (across_at 2) 6 3 2 0 3 /\ line_of across_mode 6 3 2 0 3 /\
  (forall k, k < 3 -> (0 < on_pixel (across_at 2) 2 0 eps k)%R) /\ insert_mode e1 (across_at 2) s (s_src s) = Ok src1 /\ insert_mode e2 across_mode s (s_src s) = Ok src2 /\
  on_pixel (across_at 2) 2 0 src1 1 <> RtoC 0 /\ on_pixel across_mode 2 0 src2 1 <> RtoC 0.
Proof.
  assert (HM : forall k, k < 3 -> (0 < one_low k <= 4)%R) by (intros k _; unfold one_low; destruct k; lra).
  destruct (three_wide "Ez" ex_omega one_low (or_introl eq_refl) ex_omega_pos HM) as (e1 & l1 & s & q1 & (HE & HS & _ & HL & _ & HP & _ & HI) & NZ & OP).
  assert (P2 : (0 < / sqrt 2)%R) by (apply Rinv_0_lt_compat, sqrt_lt_R0; lra). assert (SQ : (/ sqrt 2 * / sqrt 2 = / 2)%R) by (rewrite <- Rinv_mult, sqrt_sqrt by lra; reflexivity).
  set (v := fun j => RtoC (odd_profile j)). assert (HN : rsum 3 (fun k => Cmod (v k) ^ 2)%R = 1%R). { cbn [rsum]. unfold v. rewrite !Cmod_R, !pow2_abs. cbn [odd_profile]. nra. }
  destruct (across_inserted one_low v (RtoC 29) s HS odd_guided HN) as (src & HI2 & _ & _ & HD & _).
  exists e1, (guide_env v (RtoC 29)), l1, (fun _ _ _ _ => RtoC 29), s, q1, src. cbv zeta. split; [exact (proj1 HE)|]. split; [apply guide_env_correct|]. split; [exact OP|].
  split; [intros A o r w HW; apply guide_env_only in HW; subst w; exists (RtoC 1), odd_profile; intros k Hk; unfold v; ring|]. split; [exact HS|]. split; [reflexivity|]. split; [exact HL|]. split; [apply column_is_line, across_fills|].
  split; [intros k Hk; apply HP; exact Hk|]. split; [exact HI|]. split; [exact HI2|]. split; [apply NZ; lia|].
  change (on_pixel across_mode 2 0 src 1) with (nd_at src 2 1). rewrite (HD 2 1) by lia. cbn [Nat.eqb]. rewrite (real_profile v odd_profile 1 eq_refl). cbn [odd_profile]. apply RtoC_neq0. lra.
Qed.
