(** C119: a mode source in a straight guide, polarization Hz. *)
From Coq Require Import Reals Lra Lia List ZArith Arith Bool String Classical ClassicalEpsilon.
From Coquelicot Require Import Coquelicot.
From Verif Require Import Base Linear MCore MSim MFilter MOpt MMode Spec PCore PSim PropsCore PSym PropsSolve PEx PExOpt PropsFlux PMode PropsMode PropsSolv PropsOpt3 PropsGuide PropsFund.
Import ListNotations.
Local Open Scope nat_scope.

(** ** Separation of variables with a left eigenvector *)
Lemma separate_left Nx Ny a t beta (u w : vec) lam S E :
  csum Ny (fun j => w j * u j)%C = S -> S <> RtoC 0 -> (forall j', j' < Ny -> csum Ny (fun j => w j * t j j')%C = (lam * w j')%C) -> eig Ny t lam u -> sep_eq Nx Ny a t beta u E ->
  (forall E', sep_eq Nx Ny a t beta u E' -> forall i j, i < Nx -> j < Ny -> E' i j = E i j) ->
  exists g, (forall i j, i < Nx -> j < Ny -> E i j = (g i * u j)%C) /\ forall i, i < Nx -> (csum Nx (fun i' => a i i' * g i') + lam * g i = beta i)%C.
Proof.
  intros SS SN HW HE HQ HO. set (g := fun i => (csum Ny (fun j => w j * E i j) / S)%C). exists g.
  assert (G : forall i, i < Nx -> (csum Nx (fun i' => a i i' * g i') + lam * g i = beta i)%C).
  { intros i Hi.
    assert (P : (csum Ny (fun j => w j * (csum Nx (fun i' => a i i' * E i' j) + csum Ny (fun j' => t j j' * E i j'))) = beta i * S)%C).
    { rewrite <- SS, <- csum_scal. apply csum_ext. intros j Hj. rewrite (HQ i j Hi Hj). ring. }
    rewrite (csum_ext Ny _ (fun j => (csum Nx (fun i' => w j * (a i i' * E i' j)) + csum Ny (fun j' => w j * (t j j' * E i j')))%C)) in P
      by (intros j Hj; rewrite !csum_scal; ring).
    rewrite csum_plus, csum_swap, (csum_swap Ny Ny) in P.
    rewrite (csum_ext Nx _ (fun i' => (a i i' * (S * g i'))%C)) in P.
    2:{ intros i' Hi'. unfold g. rewrite (csum_ext Ny _ (fun j => (a i i' * (w j * E i' j))%C)) by (intros; ring). rewrite csum_scal. field. exact SN. }
    rewrite (csum_ext Ny _ (fun j' => (lam * (w j' * E i j'))%C)) in P.
    2:{ intros j' Hj'. rewrite (csum_ext Ny _ (fun j => (w j * t j j' * E i j')%C)) by (intros; ring). rewrite csum_scal_r, (HW j' Hj'). ring. }
    rewrite csum_scal in P. rewrite (csum_ext Nx _ (fun i' => (S * (a i i' * g i'))%C)) in P by (intros; ring). rewrite csum_scal in P.
    assert (Q : (csum Ny (fun j => w j * E i j) = S * g i)%C) by (unfold g; field; exact SN). rewrite Q in P.
    replace (beta i) with (beta i * S / S)%C by (field; exact SN). rewrite <- P. field. exact SN. }
  split; [|exact G]. intros i j Hi Hj. symmetry. apply (HO (fun i j => (g i * u j)%C)); [|assumption|assumption].
  intros i' j' Hi' Hj'. rewrite (csum_ext Nx _ (fun i'' => (a i' i'' * g i'' * u j')%C)) by (intros; ring). rewrite csum_scal_r.
  rewrite (csum_ext Ny _ (fun j'' => (g i' * (t j' j'' * u j''))%C)) by (intros; ring). rewrite csum_scal, (HE j' Hj'), <- (G i' Hi'). ring.
Qed.

(** t is symmetric after division of row j by n2 j *)
Lemma weighted_left N (t : mat) (n2 P : nat -> R) lam : (forall j, j < N -> (0 < n2 j)%R) -> (forall j j', j < N -> j' < N -> (RtoC (n2 j') * t j j' = RtoC (n2 j) * t j' j)%C) ->
  eig N t lam (fun j => RtoC (n2 j * P j)) -> forall j', j' < N -> csum N (fun j => RtoC (P j) * t j j')%C = (lam * RtoC (P j'))%C.
Proof.
  intros HP HT HE j' Hj'. assert (NZ : RtoC (n2 j') <> RtoC 0) by (apply RtoC_neq0; assert (Q := HP j' Hj'); lra).
  apply (Cmult_cancel_l (RtoC (n2 j'))); [exact NZ|]. rewrite <- csum_scal. transitivity (lam * RtoC (n2 j' * P j'))%C; [|rewrite RtoC_mult; ring].
  rewrite <- (HE j' Hj'). apply csum_ext. intros j Hj. transitivity (RtoC (P j) * (RtoC (n2 j') * t j j'))%C; [ring|]. rewrite (HT j j' Hj Hj'), RtoC_mult. ring.
Qed.
Lemma weighted_sum N (n2 P : nat -> R) : csum N (fun j => RtoC (P j) * RtoC (n2 j * P j))%C = RtoC (rsum N (fun j => n2 j * P j ^ 2)%R).
Proof. induction N; cbn [csum rsum]; [reflexivity|]. rewrite IHN, <- RtoC_mult, <- RtoC_plus. f_equal. ring. Qed.
Lemma separate_weighted Nx N a t beta (n2 P : nat -> R) lam E : (forall j, j < N -> (0 < n2 j)%R) -> (forall j j', j < N -> j' < N -> (RtoC (n2 j') * t j j' = RtoC (n2 j) * t j' j)%C) ->
  eig N t lam (fun j => RtoC (n2 j * P j)) -> sep_eq Nx N a t beta (fun j => RtoC (n2 j * P j)) E ->
  (forall E', sep_eq Nx N a t beta (fun j => RtoC (n2 j * P j)) E' -> forall i j, i < Nx -> j < N -> E' i j = E i j) ->
  exists g, (forall i j, i < Nx -> j < N -> E i j = (g i * RtoC (n2 j * P j))%C) /\ ((exists j, j < N /\ P j <> 0%R) -> forall i, i < Nx -> (csum Nx (fun i' => a i i' * g i') + lam * g i = beta i)%C).
Proof.
  intros HP HT HE HQ HO. destruct (classic (exists j, j < N /\ P j <> 0%R)) as [(j0 & Hj0 & N0)|HN].
  - assert (SP : (0 < rsum N (fun j => n2 j * P j ^ 2))%R).
    { apply Rlt_le_trans with (n2 j0 * P j0 ^ 2)%R; [apply Rmult_lt_0_compat; [apply HP; exact Hj0|apply pow2_gt_0; exact N0]|].
      apply (rsum_term_le N (fun j => n2 j * P j ^ 2)%R j0); [|exact Hj0]. intros k Hk. apply Rmult_le_pos; [apply Rlt_le, HP; exact Hk|apply pow2_ge_0]. }
    destruct (separate_left Nx N a t beta _ (fun j => RtoC (P j)) lam _ E (weighted_sum N n2 P)) as (g & G1 & G2); try assumption.
    + apply RtoC_neq0. lra.
    + apply weighted_left with (n2 := n2); assumption.
    + exists g. split; [exact G1|]. intros _. exact G2.
  - assert (Z : forall j, j < N -> P j = 0%R) by (intros j Hj; apply NNPP; intro K; apply HN; eauto).
    exists (fun _ => RtoC 0). split; [|intro K; contradiction]. intros i j Hi Hj. rewrite Cmult_0_l. symmetry. apply (HO (fun _ _ => RtoC 0)); [|assumption|assumption].
    intros i' j' Hi' Hj'. rewrite (Z j' Hj'), !csum_0 by (intros; ring). rewrite Rmult_0_r. ring.
Qed.

(** ** The lines of the solved system: the permittivity between neighbours is their mean, along either axis *)
Definition mean_prev (N : nat) (n2 : nat -> R) (k : nat) : R := ((n2 (prev N k) + n2 k) / 2)%R.
Definition along_y_mode : mode := mkMode 1 "y" (0, 0)%Z 0 1 1.
Lemma mean_between N n2 k : between along_y_mode N n2 k = mean_prev N n2 k.
Proof. reflexivity. Qed.
Definition cross (s : sim) (N : nat) (n2 : nat -> R) : mat := mode_matrix s (mkNd N 1 n2).

Section Cross.
Variables (omega dl L0 : R) (eps : nd R) (np : option (list Z)) (s : sim) (N : nat) (n2 : nat -> R).
Hypothesis HS : Simulation omega eps dl np "Hz" L0 = Ok s.
Hypothesis Hd : (0 < dl)%R.
Hypothesis HN : 2 <= N.
Hypothesis HP : forall k, k < N -> (0 < n2 k)%R.
Let size1 : nd_size (mkNd N 1 n2) = N.
Proof. unfold nd_size. cbn. lia. Qed.
Lemma cross_form v k : k < N -> csum N (fun c => cross s N n2 k c * v c)%C =
  (RtoC (n2 k) * ((v (next N k) - v k) / RtoC (mean_prev N n2 (next N k)) - (v k - v (prev N k)) / RtoC (mean_prev N n2 k)) / RtoC (dl ^ 2) + RtoC (K2 omega L0) * RtoC (n2 k) * v k)%C.
Proof.
  intro Hk. destruct (fresh_slots _ _ _ _ _ _ _ HS) as (_ & _ & _ & _ & _ & _ & SO & SL & SD & _). destruct (pol_slot _ _ _ _ _ _ _ HS) as (SP & L0p & _).
  assert (Q := line_matrix s (mkNd N 1 n2) along_y_mode N v k HN ltac:(rewrite SD; exact Hd) ltac:(rewrite SL; exact L0p) size1 eq_refl HP Hk).
  rewrite SP, SO, SL, SD in Q. exact Q.
Qed.
Lemma cross_mode lm v : eig N (cross s N n2) lm v <-> line_mode "Hz" omega dl L0 N n2 (mean_prev N n2) lm v.
Proof. exact (matrix_mode omega eps dl np "Hz" L0 s along_y_mode (mkNd N 1 n2) N n2 lm v HS Hd HN size1 eq_refl (fun _ _ => eq_refl) HP). Qed.
Lemma mean_pos k : k < N -> (0 < mean_prev N n2 k)%R.
Proof. intro Hk. unfold mean_prev. assert (A := HP k Hk). assert (B := HP _ (prev_lt N k Hk)). lra. Qed.
Lemma cross_entry j k : j < N -> k < N -> cross s N n2 j k = (RtoC (n2 j) * RtoC (chain N (c_of "Hz" dl (mean_prev N n2)) (d_of "Hz" (K2 omega L0) n2) (delta k) j))%C.
Proof.
  intros Hj Hk. transitivity (csum N (fun c => cross s N n2 j c * RtoC (delta k c))%C).
  { symmetry. rewrite (csum_ext N _ (fun c => if Nat.eqb c k then cross s N n2 j c else RtoC 0)) by (intros c Hc; unfold delta; destruct (Nat.eqb c k); ring). apply csum_delta. exact Hk. }
  rewrite cross_form by exact Hj. unfold chain, c_of, d_of. change (String.eqb "Hz" "Ez") with false. cbv iota.
  assert (A := mean_pos j Hj). assert (B := mean_pos _ (next_lt N j Hj)). assert (D2 : (0 < dl ^ 2)%R) by (apply pow_lt; exact Hd).
  set (m1 := mean_prev N n2 j) in *. set (m2 := mean_prev N n2 (next N j)) in *. set (d2 := (dl ^ 2)%R) in *.
  unfold Cdiv. rewrite <- !RtoC_minus, <- !RtoC_inv by lra. rewrite <- !RtoC_mult, <- RtoC_minus, <- !RtoC_mult, <- RtoC_plus. f_equal. field. lra.
Qed.
Lemma cross_weighted j j' : j < N -> j' < N -> (RtoC (n2 j') * cross s N n2 j j' = RtoC (n2 j) * cross s N n2 j' j)%C.
Proof.
  intros Hj Hj'. rewrite !cross_entry by assumption. set (c := c_of _ _ _). set (d := d_of _ _ _).
  assert (B : forall x y, x < N -> chain N c d (delta y) x = bil N c d (delta x) (delta y)).
  { intros x y Hx. rewrite <- chain_parts. transitivity (rsum N (fun k => chain N c d (delta y) k * delta k x)%R); [symmetry; apply delta_sum; exact Hx|]. apply rsum_ext. intros k Hk. unfold delta at 2 3. rewrite (Nat.eqb_sym x k). ring. }
  rewrite (B j j' Hj), (B j' j Hj'), (bil_sym N c d (delta j') (delta j)). ring.
Qed.
End Cross.

(** ** The system of a straight guide, Hz *)
Lemma eps_dir_at w L0 Nx Ny (e : nat -> R) i j : i < Nx -> j < Ny ->
  eps_dir w true L0 Nx Ny (cvec e) (pix Ny i j) = RtoC (EPSILON_0 * L0 * ((match w with AxX => e (pix Ny (prev Nx i) j) | AxY => e (pix Ny i (prev Ny j)) end + e (pix Ny i j)) / 2)).
Proof.
  intros Hi Hj. destruct (pix_i Ny i j Hj) as [E1 E2].
  assert (PR : forall N k, k < N -> (k + N - 1) mod N = prev N k).
  { intros N k Hk. destruct k; cbn [prev]; [rewrite Nat.mod_small by lia; reflexivity|]. replace (S k + N - 1) with (k + 1 * N) by lia. rewrite Nat.mod_add, Nat.mod_small by lia. reflexivity. }
  unfold eps_dir, grid_average, roll1, cvec. rewrite E1, E2. destruct w.
  - rewrite (PR Nx i Hi). fold (pix Ny (prev Nx i) j). apply C_ext; cbn; field.
  - rewrite (PR Ny j Hj). fold (pix Ny i (prev Ny j)). apply C_ext; cbn; field.
Qed.
Lemma pax_bwd_local (f : nat -> C) a N d v i : d <> 0%R -> 2 <= N -> i < N -> (forall k, k < N -> f k = RtoC (a k)) ->
  ax Fwd d N (fun c => f c * ax Bwd d N v c)%C i =
  ((RtoC (a (next N i)) * (v (next N i) - v i) - RtoC (a i) * (v i - v (prev N i))) / RtoC (d ^ 2))%C.
Proof.
  intros Hd HN Hi HF. unfold ax. rewrite (proj2 (Nat.ltb_lt 1 N)) by lia. rewrite prev_next by assumption. rewrite (HF _ (next_lt N i Hi)), (HF i Hi).
  assert (RtoC d <> RtoC 0) by (apply RtoC_neq0; exact Hd). replace (RtoC (d ^ 2)) with (RtoC d * RtoC d)%C by (rewrite <- RtoC_mult; f_equal; ring). field. assumption.
Qed.
Lemma guide_hz_x omega eps dl px L0 s c x i j : Simulation omega eps dl (Some [px; 0]%Z) "Hz" L0 = Ok s -> (0 < dl)%R ->
  2 <= nd_ny eps -> straight_along_x eps -> (forall j, j < nd_ny eps -> (0 < nd_at eps c j)%R) -> c < nd_nx eps -> i < nd_nx eps -> j < nd_ny eps ->
  mv (nd_nx eps * nd_ny eps) (s_A s) x (pix (nd_ny eps) i j) =
  (RtoC (/ (EPSILON_0 * L0 * nd_at eps c j)) * (csum (nd_nx eps) (fun k => along omega L0 (0, INR (nd_nx eps) * dl)%R dl (nd_nx eps) (Z.to_nat px) i k * x (pix (nd_ny eps) k j))
     + csum (nd_ny eps) (fun k => cross s (nd_ny eps) (nd_at eps c) j k * x (pix (nd_ny eps) i k))))%C.
Proof.
  intros HS Hd HN ST HP Hc Hi Hj. destruct (Simulation_matrix _ _ _ _ _ _ _ HS) as (px' & py & E & HM & Hw & HL & HA). injection E as <- <-. rewrite HA. change (String.eqb "Hz" "Ez") with false. cbv iota.
  rewrite (cross_form omega dl L0 eps _ s (nd_ny eps) (nd_at eps c) HS Hd HN HP _ j Hj).
  set (Nx := nd_nx eps) in *. set (Ny := nd_ny eps) in *. set (n2 := nd_at eps c) in *.
  assert (PX : INR Nx <> 0%R) by (apply not_0_INR; lia). assert (PY : INR Ny <> 0%R) by (apply not_0_INR; lia).
  assert (D1 : fst (dL Nx Ny (0, INR Nx * dl)%R (0, INR Ny * dl)%R) = dl) by (cbn; field; exact PX).
  assert (D2 : snd (dL Nx Ny (0, INR Nx * dl)%R (0, INR Ny * dl)%R) = dl) by (cbn; field; exact PY).
  rewrite A_grid by (rewrite ?D1, ?D2; assumption || lra). rewrite D1, D2. cbn [fst snd Ax_g Ay_g Ad_g].
  assert (EP : (0 < EPSILON_0 * L0)%R) by (apply Rmult_lt_0_compat; [apply EPSILON_0_pos|exact HL]). set (EPS := (EPSILON_0 * L0)%R) in *.
  assert (AT : forall a b, a < Nx -> b < Ny -> nd_buf eps (pix Ny a b) = n2 b). { intros a b Ha Hb. change (nd_at eps a b = nd_at eps c b). apply ST; assumption. }
  rewrite along_form by (assumption || lra).
  rewrite (pax_ext Fwd omega L0 (0, INR Nx * dl)%R dl Nx (Z.to_nat px) _ (fun k => RtoC (/ (EPS * n2 j)) * pax Bwd omega L0 (0, INR Nx * dl)%R dl Nx (Z.to_nat px) (fun c' => x (pix Ny c' j)) k)%C i Hi).
  2:{ intros k Hk. rewrite eps_dir_at by assumption. fold EPS. rewrite !AT by (try apply prev_lt; assumption). rewrite <- RtoC_inv by (apply Rgt_not_eq, Rmult_lt_0_compat; [exact EP|assert (Q := HP j Hj); fold n2 in Q; lra]). do 3 f_equal. field. }
  rewrite pax_scal by lra. change (Z.to_nat 0) with 0.
  match goal with |- (_ + ?X + _ = _)%C => replace X with ((RtoC (/ (EPS * mean_prev Ny n2 (next Ny j))) * (x (pix Ny i (next Ny j)) - x (pix Ny i j)) - RtoC (/ (EPS * mean_prev Ny n2 j)) * (x (pix Ny i j) - x (pix Ny i (prev Ny j)))) / RtoC (dl ^ 2))%C end.
  2:{ rewrite pax_no_pml. rewrite (ax_ext Fwd dl Ny _ (fun k => / eps_dir AxY true L0 Nx Ny (cvec (nd_buf eps)) (pix Ny i k) * ax Bwd dl Ny (fun c' => x (pix Ny i c')) k)%C j Hj) by (intros k Hk; rewrite pax_no_pml; reflexivity).
      symmetry. apply (pax_bwd_local (fun k => / eps_dir AxY true L0 Nx Ny (cvec (nd_buf eps)) (pix Ny i k))%C (fun k => / (EPS * mean_prev Ny n2 k))%R Ny dl (fun c' => x (pix Ny i c')) j); try assumption; [lra|].
      intros k Hk. rewrite eps_dir_at by assumption. fold EPS. rewrite !AT by (try apply prev_lt; assumption). rewrite RtoC_inv; [reflexivity|]. apply Rgt_not_eq, Rmult_lt_0_compat; [exact EP|]. exact (mean_pos Ny n2 HP k Hk). }
  assert (A := mean_pos Ny n2 HP j Hj). assert (B := mean_pos Ny n2 HP _ (next_lt Ny j Hj)). assert (C0 := HP j Hj). fold n2 in C0.
  rewrite !RtoC_inv by (apply Rgt_not_eq, Rmult_lt_0_compat; assumption). rewrite !(RtoC_mult EPS). unfold K2. fold EPS.
  replace (RtoC (omega ^ 2 * (MU_0 * L0) * EPS)) with (RtoC (omega ^ 2 * (MU_0 * L0)) * RtoC EPS)%C by (symmetry; apply RtoC_mult).
  assert (RtoC EPS <> RtoC 0) by (apply RtoC_neq0; lra). assert (RtoC (n2 j) <> RtoC 0) by (apply RtoC_neq0; lra). assert (RtoC (mean_prev Ny n2 j) <> RtoC 0) by (apply RtoC_neq0; lra).
  assert (RtoC (mean_prev Ny n2 (next Ny j)) <> RtoC 0) by (apply RtoC_neq0; lra). assert (RtoC (dl ^ 2) <> RtoC 0) by (apply RtoC_neq0, pow_nonzero; lra).
  field. repeat split; assumption.
Qed.
Lemma guide_hz_y omega eps dl py L0 s c x i j : Simulation omega eps dl (Some [0; py]%Z) "Hz" L0 = Ok s -> (0 < dl)%R ->
  2 <= nd_nx eps -> straight_along_y eps -> (forall i, i < nd_nx eps -> (0 < nd_at eps i c)%R) -> c < nd_ny eps -> i < nd_nx eps -> j < nd_ny eps ->
  mv (nd_nx eps * nd_ny eps) (s_A s) x (pix (nd_ny eps) i j) =
  (RtoC (/ (EPSILON_0 * L0 * nd_at eps i c)) * (csum (nd_ny eps) (fun k => along omega L0 (0, INR (nd_ny eps) * dl)%R dl (nd_ny eps) (Z.to_nat py) j k * x (pix (nd_ny eps) i k))
     + csum (nd_nx eps) (fun k => cross s (nd_nx eps) (fun i => nd_at eps i c) i k * x (pix (nd_ny eps) k j))))%C.
Proof.
  intros HS Hd HN ST HP Hc Hi Hj. destruct (Simulation_matrix _ _ _ _ _ _ _ HS) as (px' & py' & E & HM & Hw & HL & HA). injection E as <- <-. rewrite HA. change (String.eqb "Hz" "Ez") with false. cbv iota.
  rewrite (cross_form omega dl L0 eps _ s (nd_nx eps) (fun i => nd_at eps i c) HS Hd HN HP _ i Hi).
  set (Nx := nd_nx eps) in *. set (Ny := nd_ny eps) in *. set (n2 := fun i => nd_at eps i c) in *.
  assert (PX : INR Nx <> 0%R) by (apply not_0_INR; lia). assert (PY : INR Ny <> 0%R) by (apply not_0_INR; lia).
  assert (D1 : fst (dL Nx Ny (0, INR Nx * dl)%R (0, INR Ny * dl)%R) = dl) by (cbn; field; exact PX).
  assert (D2 : snd (dL Nx Ny (0, INR Nx * dl)%R (0, INR Ny * dl)%R) = dl) by (cbn; field; exact PY).
  rewrite A_grid by (rewrite ?D1, ?D2; assumption || lra). rewrite D1, D2. cbn [fst snd Ax_g Ay_g Ad_g].
  assert (EP : (0 < EPSILON_0 * L0)%R) by (apply Rmult_lt_0_compat; [apply EPSILON_0_pos|exact HL]). set (EPS := (EPSILON_0 * L0)%R) in *.
  assert (AT : forall a b, a < Nx -> b < Ny -> nd_buf eps (pix Ny a b) = n2 a). { intros a b Ha Hb. change (nd_at eps a b = nd_at eps a c). apply ST; assumption. }
  rewrite along_form by (assumption || lra).
  rewrite (pax_ext Fwd omega L0 (0, INR Ny * dl)%R dl Ny (Z.to_nat py) _ (fun k => RtoC (/ (EPS * n2 i)) * pax Bwd omega L0 (0, INR Ny * dl)%R dl Ny (Z.to_nat py) (fun c' => x (pix Ny i c')) k)%C j Hj).
  2:{ intros k Hk. rewrite eps_dir_at by assumption. fold EPS. rewrite !AT by (try apply prev_lt; assumption). rewrite <- RtoC_inv by (apply Rgt_not_eq, Rmult_lt_0_compat; [exact EP|assert (Q := HP i Hi); fold (n2 i) in Q; lra]). do 3 f_equal. field. }
  rewrite pax_scal by lra. change (Z.to_nat 0) with 0.
  match goal with |- (?X + _ + _ = _)%C => replace X with ((RtoC (/ (EPS * mean_prev Nx n2 (next Nx i))) * (x (pix Ny (next Nx i) j) - x (pix Ny i j)) - RtoC (/ (EPS * mean_prev Nx n2 i)) * (x (pix Ny i j) - x (pix Ny (prev Nx i) j))) / RtoC (dl ^ 2))%C end.
  2:{ rewrite pax_no_pml. rewrite (ax_ext Fwd dl Nx _ (fun k => / eps_dir AxX true L0 Nx Ny (cvec (nd_buf eps)) (pix Ny k j) * ax Bwd dl Nx (fun c' => x (pix Ny c' j)) k)%C i Hi) by (intros k Hk; rewrite pax_no_pml; reflexivity).
      symmetry. apply (pax_bwd_local (fun k => / eps_dir AxX true L0 Nx Ny (cvec (nd_buf eps)) (pix Ny k j))%C (fun k => / (EPS * mean_prev Nx n2 k))%R Nx dl (fun c' => x (pix Ny c' j)) i); try assumption; [lra|].
      intros k Hk. rewrite eps_dir_at by assumption. fold EPS. rewrite !AT by (try apply prev_lt; assumption). rewrite RtoC_inv; [reflexivity|]. apply Rgt_not_eq, Rmult_lt_0_compat; [exact EP|]. exact (mean_pos Nx n2 HP k Hk). }
  assert (A := mean_pos Nx n2 HP i Hi). assert (B := mean_pos Nx n2 HP _ (next_lt Nx i Hi)). assert (C0 := HP i Hi). change (nd_at eps i c) with (n2 i) in *. cbv beta.
  rewrite !RtoC_inv by (apply Rgt_not_eq, Rmult_lt_0_compat; assumption). rewrite !(RtoC_mult EPS). unfold K2. fold EPS. 
  replace (RtoC (omega ^ 2 * (MU_0 * L0) * EPS)) with (RtoC (omega ^ 2 * (MU_0 * L0)) * RtoC EPS)%C by (symmetry; apply RtoC_mult).
  assert (RtoC EPS <> RtoC 0) by (apply RtoC_neq0; lra). assert (RtoC (n2 i) <> RtoC 0) by (apply RtoC_neq0; lra). assert (RtoC (mean_prev Nx n2 i) <> RtoC 0) by (apply RtoC_neq0; lra).
  assert (RtoC (mean_prev Nx n2 (next Nx i)) <> RtoC 0) by (apply RtoC_neq0; lra). assert (RtoC (dl ^ 2) <> RtoC 0) by (apply RtoC_neq0, pow_nonzero; lra).
  field. repeat split; assumption.
Qed.

(** the field of a source P on column c (row c) of a straight guide *)
Definition drive_hz (omega L0 : R) (c i : nat) : C := if Nat.eqb i c then (Ci * RtoC (omega * (EPSILON_0 * L0)))%C else RtoC 0.
Lemma column_hz omega eps dl px L0 s c (P : nat -> R) b X : Simulation omega eps dl (Some [px; 0]%Z) "Hz" L0 = Ok s -> (0 < dl)%R ->
  2 <= nd_ny eps -> straight_along_x eps -> c < nd_nx eps -> (forall j, j < nd_ny eps -> (0 < nd_at eps c j)%R) ->
  (forall i j, i < nd_nx eps -> j < nd_ny eps -> b (pix (nd_ny eps) i j) = ((if Nat.eqb i c then RtoC (P j) else RtoC 0) * Ci * RtoC omega)%C) ->
  solves (nd_nx eps * nd_ny eps) (s_A s) X b <->
  sep_eq (nd_nx eps) (nd_ny eps) (along omega L0 (0, INR (nd_nx eps) * dl)%R dl (nd_nx eps) (Z.to_nat px)) (cross s (nd_ny eps) (nd_at eps c)) (drive_hz omega L0 c)
    (fun j => RtoC (nd_at eps c j * P j)) (fun i j => X (pix (nd_ny eps) i j)).
Proof.
  intros HS Hd HN ST Hc HP HB. destruct (Simulation_matrix _ _ _ _ _ _ _ HS) as (_ & _ & _ & _ & Hw & HL & _). assert (K : (0 < EPSILON_0 * L0)%R) by (apply Rmult_lt_0_compat; [apply EPSILON_0_pos|exact HL]).
  assert (KN : RtoC (EPSILON_0 * L0) <> RtoC 0) by (apply RtoC_neq0; lra).
  assert (G := fun i j Hi Hj => guide_hz_x omega eps dl px L0 s c X i j HS Hd HN ST HP Hc Hi Hj).
  assert (NN : forall j, j < nd_ny eps -> RtoC (nd_at eps c j) <> RtoC 0) by (intros j Hj; apply RtoC_neq0; assert (Q := HP j Hj); lra).
  assert (V : forall j, j < nd_ny eps -> RtoC (/ (EPSILON_0 * L0 * nd_at eps c j)) = (/ (RtoC (EPSILON_0 * L0) * RtoC (nd_at eps c j)))%C).
  { intros j Hj. rewrite RtoC_inv, RtoC_mult; [reflexivity|]. apply Rgt_not_eq, Rmult_lt_0_compat; [exact K|apply HP; exact Hj]. }
  rewrite solves_grid. unfold sep_eq, drive_hz. rewrite (RtoC_mult omega (EPSILON_0 * L0)). set (EPS := (EPSILON_0 * L0)%R) in *. split; intros H i j Hi Hj; specialize (H i j Hi Hj); assert (NJ := NN j Hj).
  - rewrite (RtoC_mult (nd_at eps c j) (P j)). rewrite G, HB, V in H by assumption. set (Z := (csum (nd_nx eps) _ + csum (nd_ny eps) _)%C) in *. replace Z with (RtoC EPS * RtoC (nd_at eps c j) * (/ (RtoC EPS * RtoC (nd_at eps c j)) * Z))%C by (field; split; assumption). rewrite H. destruct (Nat.eqb i c); ring.
  - rewrite G, HB, V by assumption. rewrite H, RtoC_mult. destruct (Nat.eqb i c); field; split; assumption.
Qed.
Lemma row_hz omega eps dl py L0 s c (P : nat -> R) b X : Simulation omega eps dl (Some [0; py]%Z) "Hz" L0 = Ok s -> (0 < dl)%R ->
  2 <= nd_nx eps -> straight_along_y eps -> c < nd_ny eps -> (forall i, i < nd_nx eps -> (0 < nd_at eps i c)%R) ->
  (forall i j, i < nd_nx eps -> j < nd_ny eps -> b (pix (nd_ny eps) i j) = ((if Nat.eqb j c then RtoC (P i) else RtoC 0) * Ci * RtoC omega)%C) ->
  solves (nd_nx eps * nd_ny eps) (s_A s) X b <->
  sep_eq (nd_ny eps) (nd_nx eps) (along omega L0 (0, INR (nd_ny eps) * dl)%R dl (nd_ny eps) (Z.to_nat py)) (cross s (nd_nx eps) (fun i => nd_at eps i c)) (drive_hz omega L0 c)
    (fun i => RtoC (nd_at eps i c * P i)) (fun j i => X (pix (nd_ny eps) i j)).
Proof.
  intros HS Hd HN ST Hc HP HB. destruct (Simulation_matrix _ _ _ _ _ _ _ HS) as (_ & _ & _ & _ & Hw & HL & _). assert (K : (0 < EPSILON_0 * L0)%R) by (apply Rmult_lt_0_compat; [apply EPSILON_0_pos|exact HL]).
  assert (KN : RtoC (EPSILON_0 * L0) <> RtoC 0) by (apply RtoC_neq0; lra).
  assert (G := fun i j Hi Hj => guide_hz_y omega eps dl py L0 s c X i j HS Hd HN ST HP Hc Hi Hj).
  assert (NN : forall j, j < nd_nx eps -> RtoC (nd_at eps j c) <> RtoC 0) by (intros j Hj; apply RtoC_neq0; assert (Q := HP j Hj); lra).
  assert (V : forall j, j < nd_nx eps -> RtoC (/ (EPSILON_0 * L0 * nd_at eps j c)) = (/ (RtoC (EPSILON_0 * L0) * RtoC (nd_at eps j c)))%C).
  { intros j Hj. rewrite RtoC_inv, RtoC_mult; [reflexivity|]. apply Rgt_not_eq, Rmult_lt_0_compat; [exact K|apply HP; exact Hj]. }
  rewrite solves_grid. unfold sep_eq, drive_hz. rewrite (RtoC_mult omega (EPSILON_0 * L0)). set (EPS := (EPSILON_0 * L0)%R) in *. split; intros H.
  - intros j i Hj Hi; specialize (H i j Hi Hj); assert (NJ := NN i Hi); rewrite (RtoC_mult (nd_at eps i c) (P i)). rewrite G, HB, V in H by assumption. set (Z := (csum (nd_ny eps) _ + csum (nd_nx eps) _)%C) in *.
    replace Z with (RtoC EPS * RtoC (nd_at eps i c) * (/ (RtoC EPS * RtoC (nd_at eps i c)) * Z))%C by (field; split; assumption). rewrite H. destruct (Nat.eqb j c); ring.
  - intros i j Hi Hj; specialize (H j i Hj Hi); assert (NJ := NN i Hi). rewrite G, HB, V by assumption. rewrite H, RtoC_mult. destruct (Nat.eqb j c); field; split; assumption.
Qed.

(** the derivative along the guide outside the layers, and its coupling, are those of C117 *)
Lemma drive_hz_c omega L0 c : (0 < omega)%R -> (0 < L0)%R -> drive_hz omega L0 c c <> RtoC 0.
Proof. intros Hw HL. unfold drive_hz. rewrite Nat.eqb_refl. apply Cmult_neq_0; [apply Ci_neq0|apply RtoC_neq0, Rgt_not_eq; apply Rmult_lt_0_compat; [exact Hw|apply Rmult_lt_0_compat; [apply EPSILON_0_pos|exact HL]]]. Qed.
Lemma kept_iff Nl N a t omega L0 (n2 P : nat -> R) E c : (0 < omega)%R -> (0 < L0)%R -> (forall j, j < N -> (0 < n2 j)%R) -> (forall j j', j < N -> j' < N -> (RtoC (n2 j') * t j j' = RtoC (n2 j) * t j' j)%C) ->
  sep_eq Nl N a t (drive_hz omega L0 c) (fun j => RtoC (n2 j * P j)) E -> (forall E', sep_eq Nl N a t (drive_hz omega L0 c) (fun j => RtoC (n2 j * P j)) E' -> forall i j, i < Nl -> j < N -> E' i j = E i j) ->
  c < Nl -> (exists i, i < Nl /\ i <> c /\ a i c <> RtoC 0) ->
  (exists g Q, forall i j, i < Nl -> j < N -> E i j = (g i * Q j)%C) <-> (exists lam, eig N t lam (fun j => RtoC (n2 j * P j))).
Proof.
  intros Hw HL HP HT HQ HO Hc (i0 & Hi0 & Ni0 & AN). split.
  - intros (g & Q & HG). apply (separate_any Nl N _ _ _ _ _ g Q c i0 HQ HG Hc); try assumption; [|apply drive_hz_c; assumption].
    intros i Hi Ni. unfold drive_hz. destruct (Nat.eqb_spec i c); [contradiction|reflexivity].
  - intros (lam & HE). destruct (separate_weighted Nl N a t _ n2 P lam E HP HT HE HQ HO) as (g & G & _). exists g, (fun j => RtoC (n2 j * P j)). exact G.
Qed.

(** what the solved field satisfies *)
Lemma solved_x e omega eps dl px L0 s c (P : nat -> R) src av s2 Ex Ey Hz : solver_exact e ->
  Simulation omega eps dl (Some [px; 0]%Z) "Hz" L0 = Ok s -> (0 < dl)%R -> 2 <= nd_ny eps -> straight_along_x eps -> one_field s -> c < nd_nx eps -> (forall j, j < nd_ny eps -> (0 < nd_at eps c j)%R) ->
  nd_nx src = nd_nx eps -> nd_ny src = nd_ny eps -> (forall i j, i < nd_nx eps -> j < nd_ny eps -> nd_at src i j = if Nat.eqb i c then RtoC (P j) else RtoC 0) ->
  solve_fields e false av (upd_src src s) = (s2, Ok (Ex, Ey, Hz)) ->
  let se := sep_eq (nd_nx eps) (nd_ny eps) (along omega L0 (0, INR (nd_nx eps) * dl)%R dl (nd_nx eps) (Z.to_nat px)) (cross s (nd_ny eps) (nd_at eps c)) (drive_hz omega L0 c) (fun j => RtoC (nd_at eps c j * P j)) in
  se (fun i j => Hz (pix (nd_ny eps) i j)) /\ forall E', se E' -> forall i j, i < nd_nx eps -> j < nd_ny eps -> E' i j = Hz (pix (nd_ny eps) i j).
Proof.
  intros He HS Hd HNy HST H1 Hc HP D1 D2 SRC HV se. destruct (fresh_slots _ _ _ _ _ _ _ HS) as (_ & _ & _ & _ & SNx & SNy & SO & SL & SD & _).
  set (Nx := nd_nx eps) in *. set (Ny := nd_ny eps) in *.
  assert (NS : nonsingular (Nx * Ny) (s_A s)). { apply one_field_iff in H1. unfold s_M in H1. rewrite SNx, SNy in H1. exact H1. }
  assert (M1 : s_M (upd_src src s) = Nx * Ny) by (unfold s_M; cbn; rewrite SNx, SNy; reflexivity).
  assert (SV := solve_fields_solves e false av (upd_src src s) s2 Ex Ey Hz He). rewrite M1 in SV. cbn [used_matrix upd_src s_A] in SV. specialize (SV NS HV).
  set (b := rhs _) in SV.
  assert (RH : forall i j, i < Nx -> j < Ny -> b (pix Ny i j) = ((if Nat.eqb i c then RtoC (P j) else RtoC 0) * Ci * RtoC omega)%C).
  { intros i j Hi Hj. unfold b, rhs. cbn [upd_src s_src s_omega]. rewrite SO. do 2 f_equal. assert (Q := SRC i j Hi Hj). unfold nd_at in Q. rewrite D2 in Q. exact Q. }
  assert (SEP := fun X => column_hz omega eps dl px L0 s c P b X HS Hd HNy HST Hc HP RH). fold Nx Ny in SEP. split; [exact (proj1 (SEP Hz) SV)|].
  intros E' HE' i j Hi Hj. apply (uniq_grid Nx Ny (s_A s) b Hz E' NS SV); [|exact Hi|exact Hj]. apply SEP. intros i' j' Hi' Hj'.
  rewrite <- (HE' i' j' Hi' Hj'). f_equal; apply csum_ext; intros k Hk; [destruct (pix_i Ny k j' Hj') as [-> ->]|destruct (pix_i Ny i' k Hk) as [-> ->]]; reflexivity.
Qed.
Lemma solved_y e omega eps dl py L0 s c (P : nat -> R) src av s2 Ex Ey Hz : solver_exact e ->
  Simulation omega eps dl (Some [0; py]%Z) "Hz" L0 = Ok s -> (0 < dl)%R -> 2 <= nd_nx eps -> straight_along_y eps -> one_field s -> c < nd_ny eps -> (forall i, i < nd_nx eps -> (0 < nd_at eps i c)%R) ->
  nd_nx src = nd_nx eps -> nd_ny src = nd_ny eps -> (forall i j, i < nd_nx eps -> j < nd_ny eps -> nd_at src i j = if Nat.eqb j c then RtoC (P i) else RtoC 0) ->
  solve_fields e false av (upd_src src s) = (s2, Ok (Ex, Ey, Hz)) ->
  let se := sep_eq (nd_ny eps) (nd_nx eps) (along omega L0 (0, INR (nd_ny eps) * dl)%R dl (nd_ny eps) (Z.to_nat py)) (cross s (nd_nx eps) (fun i => nd_at eps i c)) (drive_hz omega L0 c) (fun i => RtoC (nd_at eps i c * P i)) in
  se (fun j i => Hz (pix (nd_ny eps) i j)) /\ forall E', se E' -> forall j i, j < nd_ny eps -> i < nd_nx eps -> E' j i = Hz (pix (nd_ny eps) i j).
Proof.
  intros He HS Hd HNy HST H1 Hc HP D1 D2 SRC HV se. destruct (fresh_slots _ _ _ _ _ _ _ HS) as (_ & _ & _ & _ & SNx & SNy & SO & SL & SD & _).
  set (Nx := nd_nx eps) in *. set (Ny := nd_ny eps) in *.
  assert (NS : nonsingular (Nx * Ny) (s_A s)). { apply one_field_iff in H1. unfold s_M in H1. rewrite SNx, SNy in H1. exact H1. }
  assert (M1 : s_M (upd_src src s) = Nx * Ny) by (unfold s_M; cbn; rewrite SNx, SNy; reflexivity).
  assert (SV := solve_fields_solves e false av (upd_src src s) s2 Ex Ey Hz He). rewrite M1 in SV. cbn [used_matrix upd_src s_A] in SV. specialize (SV NS HV).
  set (b := rhs _) in SV.
  assert (RH : forall i j, i < Nx -> j < Ny -> b (pix Ny i j) = ((if Nat.eqb j c then RtoC (P i) else RtoC 0) * Ci * RtoC omega)%C).
  { intros i j Hi Hj. unfold b, rhs. cbn [upd_src s_src s_omega]. rewrite SO. do 2 f_equal. assert (Q := SRC i j Hi Hj). unfold nd_at in Q. rewrite D2 in Q. exact Q. }
  assert (SEP := fun X => row_hz omega eps dl py L0 s c P b X HS Hd HNy HST Hc HP RH). fold Nx Ny in SEP. split; [exact (proj1 (SEP Hz) SV)|].
  intros E' HE' j i Hj Hi. apply (uniq_grid Nx Ny (s_A s) b Hz (fun i j => E' j i) NS SV); [|exact Hi|exact Hj]. apply SEP. intros j' i' Hj' Hi'.
  rewrite <- (HE' j' i' Hj' Hi'). f_equal; apply csum_ext; intros k Hk; [destruct (pix_i Ny i' k Hk) as [-> ->]|destruct (pix_i Ny k j' Hj') as [-> ->]]; reflexivity.
Qed.

(** ** C119 *)
(** A source of profile P on a column (row) of a straight guide excites a field of one profile if and only if eps * P belongs to a mode of the solved system. *)
Theorem C119_profile_kept_iff_x : forall e omega eps dl px L0 s c (P : nat -> R) src av s2 Ex Ey Hz, solver_exact e ->
  Simulation omega eps dl (Some [px; 0]%Z) "Hz" L0 = Ok s -> (0 < dl)%R -> 2 <= nd_nx eps -> 2 <= nd_ny eps -> straight_along_x eps -> one_field s -> c < nd_nx eps -> (forall j, j < nd_ny eps -> (0 < nd_at eps c j)%R) ->
  nd_nx src = nd_nx eps -> nd_ny src = nd_ny eps -> (forall i j, i < nd_nx eps -> j < nd_ny eps -> nd_at src i j = if Nat.eqb i c then RtoC (P j) else RtoC 0) ->
  solve_fields e false av (upd_src src s) = (s2, Ok (Ex, Ey, Hz)) ->
  (exists g Q, forall i j, i < nd_nx eps -> j < nd_ny eps -> Hz (pix (nd_ny eps) i j) = (g i * Q j)%C) <->
  (exists b2, line_mode "Hz" omega dl L0 (nd_ny eps) (nd_at eps c) (mean_prev (nd_ny eps) (nd_at eps c)) b2 (fun j => RtoC (nd_at eps c j * P j))).
Proof.
  intros e omega eps dl px L0 s c P src av s2 Ex Ey Hz He HS Hd HNx HNy HST H1 Hc HP D1 D2 SRC HV.
  destruct (Simulation_matrix _ _ _ _ _ _ _ HS) as (_ & _ & _ & _ & Hw & HL & _).
  destruct (solved_x e omega eps dl px L0 s c P src av s2 Ex Ey Hz) as (SE & SU); try assumption.
  assert (0 < INR (nd_nx eps))%R by (apply lt_0_INR; lia).
  rewrite (kept_iff _ _ _ _ omega L0 (nd_at eps c) P (fun i j => Hz (pix (nd_ny eps) i j)) c Hw HL HP (fun j j' => cross_weighted omega dl L0 eps _ s _ _ HS Hd HNy HP j j') SE SU Hc).
  - split; intros (l & H2); exists l; apply (cross_mode omega dl L0 eps _ s _ _ HS Hd HNy HP); exact H2.
  - apply coupled; try assumption. cbn [fst snd]. apply Rmult_lt_0_compat; assumption.
Qed.
Theorem C119_profile_kept_iff_y : forall e omega eps dl py L0 s c (P : nat -> R) src av s2 Ex Ey Hz, solver_exact e ->
  Simulation omega eps dl (Some [0; py]%Z) "Hz" L0 = Ok s -> (0 < dl)%R -> 2 <= nd_nx eps -> 2 <= nd_ny eps -> straight_along_y eps -> one_field s -> c < nd_ny eps -> (forall i, i < nd_nx eps -> (0 < nd_at eps i c)%R) ->
  nd_nx src = nd_nx eps -> nd_ny src = nd_ny eps -> (forall i j, i < nd_nx eps -> j < nd_ny eps -> nd_at src i j = if Nat.eqb j c then RtoC (P i) else RtoC 0) ->
  solve_fields e false av (upd_src src s) = (s2, Ok (Ex, Ey, Hz)) ->
  (exists g Q, forall i j, i < nd_nx eps -> j < nd_ny eps -> Hz (pix (nd_ny eps) i j) = (g j * Q i)%C) <->
  (exists b2, line_mode "Hz" omega dl L0 (nd_nx eps) (fun i => nd_at eps i c) (mean_prev (nd_nx eps) (fun i => nd_at eps i c)) b2 (fun i => RtoC (nd_at eps i c * P i))).
Proof.
  intros e omega eps dl py L0 s c P src av s2 Ex Ey Hz He HS Hd HNx HNy HST H1 Hc HP D1 D2 SRC HV.
  destruct (Simulation_matrix _ _ _ _ _ _ _ HS) as (_ & _ & _ & _ & Hw & HL & _).
  destruct (solved_y e omega eps dl py L0 s c P src av s2 Ex Ey Hz) as (SE & SU); try assumption.
  assert (0 < INR (nd_ny eps))%R by (apply lt_0_INR; lia).
  assert (K := kept_iff _ _ _ _ omega L0 (fun i => nd_at eps i c) P (fun j i => Hz (pix (nd_ny eps) i j)) c Hw HL HP (fun j j' => cross_weighted omega dl L0 eps _ s _ _ HS Hd HNx HP j j') SE SU Hc).
  transitivity (exists g Q, forall j i, j < nd_ny eps -> i < nd_nx eps -> Hz (pix (nd_ny eps) i j) = (g j * Q i)%C); [split; intros (g & Q & H2); exists g, Q; intros; apply H2; assumption|]. rewrite K.
  - split; intros (l & H2); exists l; apply (cross_mode omega dl L0 eps _ s _ _ HS Hd HNx HP); exact H2.
  - apply coupled; try assumption. cbn [fst snd]. apply Rmult_lt_0_compat; assumption.
Qed.

(** The source that excites a mode u alone is u / eps: the field is u times an amplitude that satisfies the wave equation of the mode along the guide. *)
Theorem C119_divided_source_x : forall e omega eps dl px L0 s c b2 (u : nat -> R) src av s2 Ex Ey Hz, solver_exact e ->
  Simulation omega eps dl (Some [px; 0]%Z) "Hz" L0 = Ok s -> (0 < dl)%R -> 2 <= nd_nx eps -> 2 <= nd_ny eps -> straight_along_x eps -> one_field s -> c < nd_nx eps -> (forall j, j < nd_ny eps -> (0 < nd_at eps c j)%R) ->
  line_mode "Hz" omega dl L0 (nd_ny eps) (nd_at eps c) (mean_prev (nd_ny eps) (nd_at eps c)) b2 (fun j => RtoC (u j)) -> (exists j, j < nd_ny eps /\ u j <> 0%R) ->
  nd_nx src = nd_nx eps -> nd_ny src = nd_ny eps -> (forall i j, i < nd_nx eps -> j < nd_ny eps -> nd_at src i j = if Nat.eqb i c then RtoC (u j / nd_at eps c j) else RtoC 0) ->
  solve_fields e false av (upd_src src s) = (s2, Ok (Ex, Ey, Hz)) ->
  exists g, (forall i j, i < nd_nx eps -> j < nd_ny eps -> Hz (pix (nd_ny eps) i j) = (g i * RtoC (u j))%C) /\
    forall i, i < nd_nx eps -> outside_layers (nd_nx eps) (Z.to_nat px) i ->
      (second_diff dl (nd_nx eps) g i + b2 * g i = if Nat.eqb i c then Ci * RtoC (omega * (EPSILON_0 * L0)) else RtoC 0)%C.
Proof.
  intros e omega eps dl px L0 s c b2 u src av s2 Ex Ey Hz He HS Hd HNx HNy HST H1 Hc HP HU (j0 & Hj0 & N0) D1 D2 SRC HV.
  set (P := fun j => (u j / nd_at eps c j)%R).
  destruct (solved_x e omega eps dl px L0 s c P src av s2 Ex Ey Hz) as (SE & SU); try assumption.
  assert (UP : forall j, j < nd_ny eps -> (nd_at eps c j * P j = u j)%R) by (intros j Hj; unfold P; field; assert (Q := HP j Hj); lra).
  assert (EG : eig (nd_ny eps) (cross s (nd_ny eps) (nd_at eps c)) b2 (fun j => RtoC (nd_at eps c j * P j))).
  { apply (cross_mode omega dl L0 eps _ s _ _ HS Hd HNy HP) in HU. intros j Hj. rewrite (UP j Hj). rewrite <- (HU j Hj). apply csum_ext. intros k Hk. rewrite (UP k Hk). reflexivity. }
  destruct (separate_weighted _ _ _ _ _ (nd_at eps c) P b2 _ HP (fun j j' => cross_weighted omega dl L0 eps _ s _ _ HS Hd HNy HP j j') EG SE SU) as (g & G1 & G2).
  exists g. split; [intros i j Hi Hj; rewrite (G1 i j Hi Hj), (UP j Hj); reflexivity|]. intros i Hi HO.
  assert (NP : exists j, j < nd_ny eps /\ P j <> 0%R). { exists j0. split; [exact Hj0|]. intro Z. apply N0. rewrite <- (UP j0 Hj0), Z. ring. }
  assert (K := G2 NP i Hi). rewrite along_free in K by (assumption || lra). exact K.
Qed.
Theorem C119_divided_source_y : forall e omega eps dl py L0 s c b2 (u : nat -> R) src av s2 Ex Ey Hz, solver_exact e ->
  Simulation omega eps dl (Some [0; py]%Z) "Hz" L0 = Ok s -> (0 < dl)%R -> 2 <= nd_nx eps -> 2 <= nd_ny eps -> straight_along_y eps -> one_field s -> c < nd_ny eps -> (forall i, i < nd_nx eps -> (0 < nd_at eps i c)%R) ->
  line_mode "Hz" omega dl L0 (nd_nx eps) (fun i => nd_at eps i c) (mean_prev (nd_nx eps) (fun i => nd_at eps i c)) b2 (fun i => RtoC (u i)) -> (exists i, i < nd_nx eps /\ u i <> 0%R) ->
  nd_nx src = nd_nx eps -> nd_ny src = nd_ny eps -> (forall i j, i < nd_nx eps -> j < nd_ny eps -> nd_at src i j = if Nat.eqb j c then RtoC (u i / nd_at eps i c) else RtoC 0) ->
  solve_fields e false av (upd_src src s) = (s2, Ok (Ex, Ey, Hz)) ->
  exists g, (forall i j, i < nd_nx eps -> j < nd_ny eps -> Hz (pix (nd_ny eps) i j) = (g j * RtoC (u i))%C) /\
    forall j, j < nd_ny eps -> outside_layers (nd_ny eps) (Z.to_nat py) j ->
      (second_diff dl (nd_ny eps) g j + b2 * g j = if Nat.eqb j c then Ci * RtoC (omega * (EPSILON_0 * L0)) else RtoC 0)%C.
Proof.
  intros e omega eps dl py L0 s c b2 u src av s2 Ex Ey Hz He HS Hd HNx HNy HST H1 Hc HP HU (j0 & Hj0 & N0) D1 D2 SRC HV.
  set (P := fun j => (u j / nd_at eps j c)%R). set (n2 := fun i => nd_at eps i c).
  destruct (solved_y e omega eps dl py L0 s c P src av s2 Ex Ey Hz) as (SE & SU); try assumption.
  assert (UP : forall j, j < nd_nx eps -> (n2 j * P j = u j)%R) by (intros j Hj; unfold P, n2; field; assert (Q := HP j Hj); lra).
  assert (EG : eig (nd_nx eps) (cross s (nd_nx eps) n2) b2 (fun j => RtoC (n2 j * P j))).
  { apply (cross_mode omega dl L0 eps _ s _ _ HS Hd HNx HP) in HU. intros j Hj. rewrite (UP j Hj). rewrite <- (HU j Hj). apply csum_ext. intros k Hk. rewrite (UP k Hk). reflexivity. }
  destruct (separate_weighted _ _ _ _ _ n2 P b2 _ HP (fun j j' => cross_weighted omega dl L0 eps _ s _ _ HS Hd HNx HP j j') EG SE SU) as (g & G1 & G2).
  exists g. split; [intros i j Hi Hj; rewrite (G1 j i Hj Hi), (UP i Hi); reflexivity|]. intros i Hi HO.
  assert (NP : exists j, j < nd_nx eps /\ P j <> 0%R). { exists j0. split; [exact Hj0|]. intro Z. apply N0. rewrite <- (UP j0 Hj0), Z. ring. }
  assert (K := G2 NP i Hi). rewrite along_free in K by (assumption || lra). exact K.
Qed.

(** two modes of one line, the second eps times the first, have the same propagation constant *)
Lemma eps_times_mode omega dl L0 N n2 nb b x (u : nat -> R) : (0 < dl)%R -> (forall k, k < N -> (0 < n2 k)%R) -> (forall k, k < N -> (0 < nb k)%R) -> (exists k, k < N /\ u k <> 0%R) ->
  line_mode "Hz" omega dl L0 N n2 nb (RtoC b) (fun k => RtoC (u k)) -> line_mode "Hz" omega dl L0 N n2 nb x (fun k => RtoC (n2 k * u k)) -> x = RtoC b.
Proof.
  intros Hd HP HB (j0 & Hj0 & N0) H1 H2. assert (Hr := r_of_pos "Hz" n2 N HP).
  assert (NZ2 : exists j, j < N /\ RtoC (n2 j * u j) <> RtoC 0). { exists j0. split; [exact Hj0|]. apply RtoC_neq0. apply Rmult_integral_contrapositive_currified; [assert (Q := HP j0 Hj0); lra|exact N0]. }
  assert (NZ1 : exists j, j < N /\ RtoC (u j) <> RtoC 0). { exists j0. split; [exact Hj0|]. apply RtoC_neq0. exact N0. }
  apply line_chain in H1; try assumption. apply line_chain in H2; try assumption.
  destruct (chain_eig_real N _ _ _ _ _ Hr H1 NZ1) as (_ & M1 & _). destruct (chain_eig_real N _ _ _ _ _ Hr H2 NZ2) as (I0 & M2 & _). cbv beta in M1, M2. cbn [Re RtoC fst] in M1, M2.
  assert (A := bil_mode N _ _ _ _ (fun k => (n2 k * u k)%R) _ M1). assert (B := bil_mode N _ _ _ _ (fun k => u k) _ M2). rewrite bil_sym in B. cbv beta in A, B.
  change (fun k : nat => u k) with u in *. rewrite A in B.
  assert (S : forall y z : nat -> R, (forall k, k < N -> (y k * z k = n2 k * u k ^ 2)%R) -> rsum N (fun j => r_of "Hz" n2 j * (y j * z j))%R = rsum N (fun j => u j ^ 2)%R).
  { intros y z HY. apply rsum_ext. intros k Hk. rewrite (HY k Hk). unfold r_of. change (String.eqb "Hz" "Ez") with false. cbv iota. field. assert (Q := HP k Hk). lra. }
  rewrite !S in B by (intros; ring). assert (PS := rsum_sq_pos N u j0 Hj0 N0). apply C_ext; [|exact I0]. cbn [Re RtoC fst]. apply (Rmult_eq_reg_r (rsum N (fun j => u j ^ 2)%R)); [|lra]. symmetry. exact B.
Qed.
Lemma line_mode_scal p omega dl L0 N n2 nb b (v w : nat -> C) (z : C) : (forall k, k < N -> w k = (z * v k)%C) -> line_mode p omega dl L0 N n2 nb b v -> line_mode p omega dl L0 N n2 nb b w.
Proof.
  intros HW H k Hk. specialize (H k Hk). cbv zeta in *. rewrite !HW by (try apply next_lt; try apply prev_lt; exact Hk). transitivity (z * (b * v k))%C; [|ring]. rewrite <- H. unfold Cdiv. destruct (String.eqb p "Ez"); ring.
Qed.

(** The fundamental mode of a guide along y, as a mode source writes it, excites a field of one profile only if the guide has no cross-section at all. *)
Theorem C119_alone_iff_uniform_y : forall e lam omega eps dl py L0 s m c src av s2 Ex Ey Hz,
  solver_exact e -> eigs_nearest e lam -> Simulation omega eps dl (Some [0; py]%Z) "Hz" L0 = Ok s -> (0 < dl)%R -> 2 <= nd_nx eps -> 2 <= nd_ny eps -> straight_along_y eps ->
  fills_row m (nd_nx eps) (nd_ny eps) c -> one_field s -> (forall i, i < nd_nx eps -> (0 < nd_at eps i c <= md_neff m ^ 2)%R) -> md_order m = 1 ->
  insert_mode e m s (s_src s) = Ok src -> (exists i, i < nd_nx eps /\ nd_at src i c <> RtoC 0) -> solve_fields e false av (upd_src src s) = (s2, Ok (Ex, Ey, Hz)) ->
  (exists g Q, forall i j, i < nd_nx eps -> j < nd_ny eps -> Hz (pix (nd_ny eps) i j) = (g j * Q i)%C) <-> (forall i i', i < nd_nx eps -> i' < nd_nx eps -> nd_at eps i c = nd_at eps i' c).
Proof.
  intros e lam omega eps dl py L0 s m c src av s2 Ex Ey Hz He HE HS Hd HNx HNy HST HF H1 HM HO HI (i0 & Hi0 & S0) HV. assert (HXn := proj1 HF). assert (Hc := proj1 (proj2 HF)).
  assert (OP : forall T (a : nd T) k, on_pixel m c 0 a k = nd_at a k c) by (intros; unfold on_pixel; rewrite HXn; reflexivity).
  assert (HM' : forall k, k < nd_nx eps -> (0 < on_pixel m c 0 eps k <= md_neff m ^ 2)%R) by (intros k Hk; rewrite OP; apply HM; exact Hk).
  destruct (C118_fundamental _ _ _ _ _ _ _ _ _ _ _ _ _ _ HE HS Hd (row_is_line _ _ _ _ HF) HNx HM' HO HI) as (b & u & q & (UP & UM & UT) & WR & _).
  destruct (fresh_slots _ _ _ _ _ _ _ HS) as (SX & SY & Z0 & SE & _).
  destruct (row_source e m s (s_src s) src c HI) as (L & v & _ & _ & _ & D1 & D2 & SRC); rewrite ?SE; try assumption. rewrite SE in *.
  set (n2 := fun i => nd_at eps i c). set (N := nd_nx eps) in *. assert (HP : forall i, i < N -> (0 < n2 i)%R) by (intros i Hi; apply HM; exact Hi). assert (MP := mean_pos N n2 HP).
  assert (LM : forall x w, line_mode "Hz" omega dl L0 N (on_pixel m c 0 eps) (between m N (on_pixel m c 0 eps)) x w <-> line_mode "Hz" omega dl L0 N n2 (mean_prev N n2) x w).
  { intros x w. assert (E2 : forall k, between m N (on_pixel m c 0 eps) k = mean_prev N n2 k) by (intro k; unfold between; rewrite HXn; rewrite !OP; reflexivity). split; apply line_mode_ext; intros k Hk; rewrite ?OP, ?E2; reflexivity. }
  apply LM in UM.
  assert (Nq : q <> 0%R). { intro Z. apply S0. rewrite <- OP, (WR i0 Hi0), Z. f_equal. ring. }
  assert (SRC' : forall i j, i < N -> j < nd_ny eps -> nd_at src i j = if Nat.eqb j c then RtoC (q * u i) else RtoC 0).
  { intros i j Hi Hj. destruct (Nat.eqb_spec j c) as [->|Nj]; [rewrite <- OP; apply WR; exact Hi|]. rewrite (SRC i j Hi Hj). destruct (Nat.eqb_spec j c); [contradiction|]. apply Z0. }
  etransitivity; [exact (C119_profile_kept_iff_y e omega eps dl py L0 s c (fun i => q * u i)%R src av s2 Ex Ey Hz He HS Hd HNx HNy HST H1 Hc HP D1 D2 SRC' HV)|]. fold N n2. change (fun i => RtoC (nd_at eps i c * (q * u i))) with (fun i => RtoC (n2 i * (q * u i))). split.
  - intros (x & HX).
    assert (HX' : line_mode "Hz" omega dl L0 N n2 (mean_prev N n2) x (fun k => RtoC (n2 k * u k))).
    { apply (line_mode_scal _ _ _ _ _ _ _ _ (fun k => RtoC (n2 k * (q * u k))) _ (RtoC (/ q))); [|exact HX]. intros k Hk. rewrite <- RtoC_mult. f_equal. field. exact Nq. }
    assert (U0 : exists k, k < N /\ u k <> 0%R) by (exists i0; split; [exact Hi0|apply Rgt_not_eq, UP; exact Hi0]).
    assert (EX := eps_times_mode omega dl L0 N n2 _ b x u Hd HP MP U0 UM HX'). subst x.
    destruct (UT (RtoC b) (fun k => RtoC (n2 k * u k))) as (x & XB & _ & XU); [apply LM; exact HX'| |].
    { exists i0. split; [exact Hi0|]. apply RtoC_neq0, Rgt_not_eq, Rmult_lt_0_compat; [apply HP|apply UP]; exact Hi0. }
    apply (f_equal Re) in XB. cbn [Re RtoC fst] in XB. destruct (XU (eq_sym XB)) as (z & ZU).
    assert (G : forall k, k < N -> n2 k = Re z). { intros k Hk. assert (Q := ZU k Hk). apply (f_equal Re) in Q. destruct z as [z1 z2]. cbn in Q. cbn. apply (Rmult_eq_reg_r (u k)); [|apply Rgt_not_eq, UP; exact Hk]. rewrite Q. ring. }
    intros i i' Hi Hi'. change (n2 i = n2 i'). rewrite (G i Hi), (G i' Hi'). reflexivity.
  - intro HU. exists (RtoC b). apply (line_mode_scal _ _ _ _ _ _ _ _ (fun k => RtoC (u k)) _ (RtoC (n2 i0 * q))); [|exact UM]. intros k Hk. rewrite <- RtoC_mult. f_equal. change (n2 k) with (nd_at eps k c). rewrite (HU k i0 Hk Hi0). unfold n2. ring.
Qed.

(** ** Two materials side by side *)
Definition two_y : nd R := mkNd 2 3 (fun k => if Nat.ltb k 3 then 1%R else 2%R).
Definition two_x : nd R := mkNd 3 2 (fun k => if Nat.eqb (k mod 2) 0 then 1%R else 2%R).
Definition row_mode : mode := mkMode 2 "y" (1, 1)%Z 2 1 1.
Definition col_mode : mode := mkMode 2 "x" (1, 1)%Z 2 1 1.
Definition one_two (k : nat) : R := match k with O => 1%R | _ => 2%R end.
Lemma two_y_at i j : i < 2 -> j < 3 -> nd_at two_y i j = one_two i.
Proof. intros Hi Hj. destruct i as [|[|]]; [..|lia]; destruct j as [|[|[|]]]; try lia; reflexivity. Qed.
Lemma two_x_at i j : i < 3 -> j < 2 -> nd_at two_x i j = one_two j.
Proof. intros Hi Hj. destruct i as [|[|[|]]]; [..|lia]; destruct j as [|[|]]; try lia; reflexivity. Qed.
Lemma two_positive : positive two_y /\ positive two_x.
Proof. split; intros k Hk; cbn [two_y two_x nd_buf]; [destruct (Nat.ltb k 3)|destruct (Nat.eqb (k mod 2) 0)]; lra. Qed.
Lemma row_fills : fills_row row_mode 2 3 1.
Proof.
  split; [reflexivity|]. split; [lia|]. intros i j Hi Hj. unfold on_line, row_mode. cbn [md_center md_width md_normal]. rewrite !in_slice_bounds. split.
  - intros [(A & _)|(_ & _ & A)]; [discriminate|]. unfold slice_bound in A. cbn in A. lia.
  - intros ->. right. split; [reflexivity|]. cbn. lia.
Qed.
Lemma col_fills : fills_column col_mode 3 2 1.
Proof.
  split; [reflexivity|]. split; [lia|]. intros i j Hi Hj. unfold on_line, col_mode. cbn [md_center md_width md_normal]. rewrite !in_slice_bounds. split.
  - intros [(_ & A & _)|(A & _)]; [|discriminate]. unfold slice_bound in A. cbn in A. lia.
  - intros ->. left. split; [reflexivity|]. cbn. lia.
Qed.
(** a frequency above ex_omega at which there is one field *)
Lemma a_frequency eps : positive eps -> exists omega s, (ex_omega <= omega)%R /\ Simulation omega eps 1 (Some [0; 0]%Z) "Hz" 1 = Ok s /\ one_field s.
Proof.
  intro HP. destruct (C106_almost_every_frequency eps 1 (Some [0; 0]%Z) "Hz" 1 ltac:(lra) HP) as [l Hl].
  set (w := (ex_omega + 1 + fold_right (fun x acc => Rabs x + acc) 0 l)%R).
  assert (G : forall l', (0 <= fold_right (fun x acc => Rabs x + acc) 0 l')%R /\ forall x, In x l' -> (x <= fold_right (fun x acc => Rabs x + acc) 0 l')%R).
  { induction l' as [|y l' [I1 I2]]; cbn [fold_right]; [split; [lra|intros x []]|]. assert (A1 := Rabs_pos y). assert (A2 := Rle_abs y).
    split; [lra|]. intros x [E|Hx]; [subst x; lra|]. specialize (I2 x Hx). lra. }
  destruct (G l) as [G1 G2]. assert (EO := ex_omega_pos). assert (Hw : (0 < w)%R) by (unfold w; lra).
  assert (Hs : exists s, Simulation w eps 1 (Some [0; 0]%Z) "Hz" 1 = Ok s).
  { unfold Simulation, check_inputs. destruct (Rlt_dec 0 1); [|lra]. destruct (Rlt_dec 0 w); [|contradiction]. eexists. reflexivity. }
  destruct Hs as [s Hs]. exists w, s. split; [unfold w; lra|]. split; [exact Hs|]. apply (Hl w s Hs). intro Hi. specialize (G2 w Hi). unfold w in G2. lra.
Qed.
(** an eigensolver that returns the fundamental mode of the line *)
Lemma near_fundamental omega eps s m (L : nd R) n2 : Simulation omega eps 1 (Some [0; 0]%Z) "Hz" 1 = Ok s -> nd_size L = 2 -> (if String.eqb (md_normal m) "x" then nd_nx L = 1 else nd_ny L = 1) ->
  (forall k, k < 2 -> nd_buf L k = n2 k) -> (forall k, k < 2 -> (0 < n2 k <= md_neff m ^ 2)%R) ->
  exists v lm, e_eigs (near_env v lm) 2 (mode_matrix s L) 1 (beta2 m s) = Ok v /\ (forall k, k < 2 -> exists r, v k = RtoC r /\ (0 < r)%R).
Proof.
  intros HS LS LX LB HM. assert (HP : forall k, k < 2 -> (0 < n2 k)%R) by (intros k Hk; apply HM; exact Hk). assert (HB := between_pos m 2 n2 HP).
  destruct (C118_fundamental_exists "Hz" omega 1 1 2 n2 (between m 2 n2) (md_neff m ^ 2) ltac:(lia) ltac:(lra) HM HB) as (b & u & (UP & UM & UT) & LE & _). fold (K2 omega 1) in LE.
  assert (MM := fun lm w => matrix_mode omega eps 1 _ "Hz" 1 s m L 2 n2 lm w HS ltac:(lra) ltac:(lia) LS LX LB HP).
  set (S := rsum 2 (fun k => u k ^ 2)%R). assert (U0 := UP 0 ltac:(lia)). assert (U1 := UP 1 ltac:(lia)).
  assert (SP : (0 < S)%R) by (apply (rsum_sq_pos 2 u 0); [lia|lra]). assert (QP := sqrt_lt_R0 S SP).
  set (v := fun k => RtoC (/ sqrt S * u k)). exists v, (RtoC b). split.
  - cbn [near_env e_eigs]. destruct (excluded_middle_informative _) as [|Q]; [reflexivity|]. exfalso. apply Q. split; [split|].
    + apply MM. apply (line_mode_scal _ _ _ _ _ _ _ _ (fun k => RtoC (u k)) _ (RtoC (/ sqrt S))); [|exact UM]. intros k Hk. apply RtoC_mult.
    + rewrite (rsum_ext 2 _ (fun k => (/ sqrt S) ^ 2 * u k ^ 2)%R) by (intros k Hk; unfold v; rewrite Cmod_R, pow2_abs; ring). rewrite rsum_scal. fold S. rewrite pow_inv, <- Rsqr_pow2, Rsqr_sqrt by lra. field. lra.
    + intros mu w NW HW. apply MM in HW. destruct (UT mu w HW NW) as (x & -> & XB & _). destruct (fresh_slots _ _ _ _ _ _ _ HS) as (_ & _ & _ & _ & _ & _ & SO & SL & _).
      rewrite (beta2_K2 m s omega 1 SO SL) by lra. rewrite <- !RtoC_minus, !Cmod_R. rewrite !Rabs_left1 by lra. lra.
  - intros k Hk. exists (/ sqrt S * u k)%R. split; [reflexivity|]. apply Rmult_lt_0_compat; [apply Rinv_0_lt_compat; exact QP|apply UP; exact Hk].
Qed.
Lemma solves_somehow v lm s src : nd_size src = s_M s -> exists s2 a b z, solve_fields (near_env v lm) false true (upd_src src s) = (s2, Ok (a, b, z)).
Proof.
  intro SZ. unfold solve_fields. change (s_src (upd_src src s)) with src. change (s_M (upd_src src s)) with (s_M s). rewrite SZ, Nat.eqb_refl. cbn [negb].
  match goal with |- context [solver_direct ?e ?n ?A ?b _] => destruct (solver_direct_default_ok e n A b) as [Y ->] end. destruct (derived_fields _ _ _ _) as [a3 b3]. do 4 eexists. reflexivity.
Qed.

Example C119_met_y : exists e lam omega s src s2 Ex Ey Hz,
  solver_exact e /\ eigs_nearest e lam /\ (ex_omega <= omega)%R /\ Simulation omega two_y 1 (Some [0; 0]%Z) "Hz" 1 = Ok s /\ straight_along_y two_y /\ fills_row row_mode 2 3 1 /\ one_field s /\
  (forall i, i < 2 -> (0 < nd_at two_y i 1 <= md_neff row_mode ^ 2)%R) /\ nd_at two_y 0 1 <> nd_at two_y 1 1 /\ md_order row_mode = 1 /\
  insert_mode e row_mode s (s_src s) = Ok src /\ nd_at src 0 1 <> RtoC 0 /\ solve_fields e false true (upd_src src s) = (s2, Ok (Ex, Ey, Hz)).
Proof.
  destruct (a_frequency two_y (proj1 two_positive)) as (omega & s & Hw & HS & H1). destruct (fresh_slots _ _ _ _ _ _ _ HS) as (SX & SY & Z0 & SE & SNx & SNy & _).
  set (L := nd_slice (s_eps s) 0 2 1 2).
  assert (LS : nd_size L = 2) by (unfold L; rewrite SE; reflexivity). assert (LY : nd_ny L = 1) by (unfold L; rewrite SE; reflexivity).
  assert (LB : forall k, k < 2 -> nd_buf L k = one_two k). { intros k Hk. unfold L. rewrite SE. destruct k as [|[|]]; [..|lia]; reflexivity. }
  assert (HM : forall k, k < 2 -> (0 < one_two k <= md_neff row_mode ^ 2)%R) by (intros k Hk; cbn [row_mode md_neff]; destruct k; cbn [one_two]; lra).
  destruct (near_fundamental omega two_y s row_mode L one_two HS LS LY LB HM) as (v & lm & EE & VP).
  assert (HI : exists src, insert_mode (near_env v lm) row_mode s (s_src s) = Ok src).
  { unfold insert_mode. change (line_inds (md_normal row_mode) (md_center row_mode) (md_width row_mode)) with (@Ok (Z * Z * Z * Z) (0, 2, 1, 2)%Z). cbv zeta iota. fold L. rewrite LS. cbn [Nat.eqb]. unfold beta2 in EE. change (md_order row_mode) with 1.
    rewrite EE. unfold nd_assign. rewrite SX, SY. eexists. reflexivity. }
  destruct HI as (src & HI). 
  destruct (row_source _ row_mode s (s_src s) src 1 HI) as (L' & v' & _ & _ & EV & D1 & D2 & SRC); rewrite ?SE; try assumption; try (cbn; lia); [exact row_fills|]. rewrite SE in *. apply near_env_only in EV. subst v'.
  destruct (solves_somehow v lm s src) as (s2 & a & b & z & SF). { unfold nd_size, s_M. rewrite D1, D2, SNx, SNy. reflexivity. }
  exists (near_env v lm), (fun _ _ _ _ => lm), omega, s, src, s2, a, b, z.
  split; [apply near_env_exact|]. split; [apply near_env_nearest|]. split; [exact Hw|]. split; [exact HS|]. split; [intros i j j' Hi Hj Hj'; rewrite !two_y_at by assumption; reflexivity|]. split; [exact row_fills|]. split; [exact H1|].
  split; [intros i Hi; rewrite two_y_at by (assumption || lia); apply HM; exact Hi|]. split; [rewrite !two_y_at by lia; cbn; lra|]. split; [reflexivity|]. split; [exact HI|]. split; [|exact SF].
  rewrite SRC by (cbn; lia). cbn [Nat.eqb]. destruct (VP 0 ltac:(lia)) as (r & E & R0). change (md_scale row_mode) with 1%R. rewrite (real_profile v (fun _ => r) 0 E). apply RtoC_neq0. lra.
Qed.
Example C119_met_x : exists e lam omega s src s2 Ex Ey Hz,
  solver_exact e /\ eigs_nearest e lam /\ (ex_omega <= omega)%R /\ Simulation omega two_x 1 (Some [0; 0]%Z) "Hz" 1 = Ok s /\ straight_along_x two_x /\ fills_column col_mode 3 2 1 /\ one_field s /\
  (forall j, j < 2 -> (0 < nd_at two_x 1 j <= md_neff col_mode ^ 2)%R) /\ md_order col_mode = 1 /\
  insert_mode e col_mode s (s_src s) = Ok src /\ nd_at src 1 0 <> RtoC 0 /\ solve_fields e false true (upd_src src s) = (s2, Ok (Ex, Ey, Hz)).
Proof.
  destruct (a_frequency two_x (proj2 two_positive)) as (omega & s & Hw & HS & H1). destruct (fresh_slots _ _ _ _ _ _ _ HS) as (SX & SY & Z0 & SE & SNx & SNy & _).
  set (L := nd_slice (s_eps s) 1 2 0 2).
  assert (LS : nd_size L = 2) by (unfold L; rewrite SE; reflexivity). assert (LY : nd_nx L = 1) by (unfold L; rewrite SE; reflexivity).
  assert (LB : forall k, k < 2 -> nd_buf L k = one_two k). { intros k Hk. unfold L. rewrite SE. destruct k as [|[|]]; [..|lia]; reflexivity. }
  assert (HM : forall k, k < 2 -> (0 < one_two k <= md_neff col_mode ^ 2)%R) by (intros k Hk; cbn [col_mode md_neff]; destruct k; cbn [one_two]; lra).
  destruct (near_fundamental omega two_x s col_mode L one_two HS LS LY LB HM) as (v & lm & EE & VP).
  assert (HI : exists src, insert_mode (near_env v lm) col_mode s (s_src s) = Ok src).
  { unfold insert_mode. change (line_inds (md_normal col_mode) (md_center col_mode) (md_width col_mode)) with (@Ok (Z * Z * Z * Z) (1, 2, 0, 2)%Z). cbv zeta iota. fold L. rewrite LS. cbn [Nat.eqb]. unfold beta2 in EE. change (md_order col_mode) with 1.
    rewrite EE. unfold nd_assign. rewrite SX, SY. eexists. reflexivity. }
  destruct HI as (src & HI).
  destruct (column_source _ col_mode s (s_src s) src 1 HI) as (L' & v' & _ & _ & EV & D1 & D2 & SRC); rewrite ?SE; try assumption; try (cbn; lia); [exact col_fills|]. rewrite SE in *. apply near_env_only in EV. subst v'.
  destruct (solves_somehow v lm s src) as (s2 & a & b & z & SF). { unfold nd_size, s_M. rewrite D1, D2, SNx, SNy. reflexivity. }
  exists (near_env v lm), (fun _ _ _ _ => lm), omega, s, src, s2, a, b, z.
  split; [apply near_env_exact|]. split; [apply near_env_nearest|]. split; [exact Hw|]. split; [exact HS|]. split; [intros i j j' Hi Hj Hj'; rewrite !two_x_at by assumption; reflexivity|]. split; [exact col_fills|]. split; [exact H1|].
  split; [intros i Hi; rewrite two_x_at by (assumption || lia); apply HM; exact Hi|]. split; [reflexivity|]. split; [exact HI|]. split; [|exact SF].
  rewrite SRC by (cbn; lia). cbn [Nat.eqb]. destruct (VP 0 ltac:(lia)) as (r & E & R0). change (md_scale col_mode) with 1%R. rewrite (real_profile v (fun _ => r) 0 E). apply RtoC_neq0. lra.
Qed.

(** Hence the claim is false in both directions: with the exact solver, the right eigenvector and the right order, the field of the mode source of
    a guide of two materials is not one profile. *)
Theorem C119_mode_alone_y_refuted :
  ~ (forall e lam omega eps dl py L0 s m c src av s2 Ex Ey Hz, solver_exact e -> eigs_nearest e lam -> Simulation omega eps dl (Some [0; py]%Z) "Hz" L0 = Ok s -> (0 < dl)%R -> 2 <= nd_nx eps -> 2 <= nd_ny eps -> straight_along_y eps ->
     fills_row m (nd_nx eps) (nd_ny eps) c -> one_field s -> (forall i, i < nd_nx eps -> (0 < nd_at eps i c <= md_neff m ^ 2)%R) -> md_order m = 1 ->
     insert_mode e m s (s_src s) = Ok src -> solve_fields e false av (upd_src src s) = (s2, Ok (Ex, Ey, Hz)) ->
     exists g Q, forall i j, i < nd_nx eps -> j < nd_ny eps -> Hz (pix (nd_ny eps) i j) = (g j * Q i)%C).
Proof.
  intro H. destruct C119_met_y as (e & lam & omega & s & src & s2 & Ex & Ey & Hz & A1 & A2 & A3 & A4 & A5 & A6 & A7 & A8 & A9 & A10 & A11 & A12 & A13).
  apply A9. apply (proj1 (C119_alone_iff_uniform_y e lam omega two_y 1 0 1 s row_mode 1 src true s2 Ex Ey Hz A1 A2 A4 ltac:(lra) ltac:(cbn; lia) ltac:(cbn; lia) A5 A6 A7 A8 A10 A11 ltac:(exists 0; split; [cbn; lia|exact A12]) A13)); try (cbn; lia).
  apply (H e lam omega two_y 1%R 0%Z 1%R s row_mode 1 src true s2 Ex Ey Hz); try assumption; try lra; cbn; lia.
Qed.
Theorem C119_mode_alone_x_refuted :
  ~ (forall e lam omega eps dl px L0 s m c src av s2 Ex Ey Hz, solver_exact e -> eigs_nearest e lam -> Simulation omega eps dl (Some [px; 0]%Z) "Hz" L0 = Ok s -> (0 < dl)%R -> 2 <= nd_nx eps -> 2 <= nd_ny eps -> straight_along_x eps ->
     fills_column m (nd_nx eps) (nd_ny eps) c -> one_field s -> (forall j, j < nd_ny eps -> (0 < nd_at eps c j <= md_neff m ^ 2)%R) -> md_order m = 1 ->
     insert_mode e m s (s_src s) = Ok src -> solve_fields e false av (upd_src src s) = (s2, Ok (Ex, Ey, Hz)) ->
     exists g Q, forall i j, i < nd_nx eps -> j < nd_ny eps -> Hz (pix (nd_ny eps) i j) = (g i * Q j)%C).
Proof.
  intro H. destruct C119_met_x as (e & lam & omega & s & src & s2 & Ex & Ey & Hz & A1 & A2 & A3 & A4 & A5 & A6 & A7 & A8 & A10 & A11 & A12 & A13).
  assert (ON := H e lam omega two_x 1%R 0%Z 1%R s col_mode 1 src true s2 Ex Ey Hz A1 A2 A4 ltac:(lra) ltac:(cbn; lia) ltac:(cbn; lia) A5 A6 A7 A8 A10 A11 A13).
  assert (OP : forall T (a : nd T) k, on_pixel col_mode 1 0 a k = nd_at a 1 k) by reflexivity.
  assert (HM' : forall k, k < nd_ny two_x -> (0 < on_pixel col_mode 1 0 two_x k <= md_neff col_mode ^ 2)%R) by exact A8.
  destruct (C118_fundamental e lam omega two_x 1 (Some [0; 0]%Z) "Hz" 1 s col_mode 1 0 2 src A2 A4 ltac:(lra) (column_is_line _ _ _ _ A6) ltac:(lia) HM' A10 A11) as (b & u & q & (UP & UM & _) & WR & _).
  destruct (fresh_slots _ _ _ _ _ _ _ A4) as (SX & SY & Z0 & SE & _).
  destruct (column_source e col_mode s (s_src s) src 1 A11) as (L & v & _ & _ & _ & D1 & D2 & SRC); rewrite ?SE; try assumption; try (cbn; lia). rewrite SE in *.
  assert (Nq : q <> 0%R). { intro Z. apply A12. rewrite <- OP, (WR 0) by lia. rewrite Z. f_equal. ring. }
  assert (SRC' : forall i j, i < nd_nx two_x -> j < nd_ny two_x -> nd_at src i j = if Nat.eqb i 1 then RtoC (q * u j) else RtoC 0).
  { intros i j Hi Hj. destruct (Nat.eqb_spec i 1) as [->|Nj]; [rewrite <- OP; apply WR; exact Hj|]. rewrite (SRC i j Hi Hj). destruct (Nat.eqb_spec i 1); [contradiction|]. apply Z0. }
  apply (C119_profile_kept_iff_x e omega two_x 1 0 1 s 1 (fun j => q * u j)%R src true s2 Ex Ey Hz A1 A4 ltac:(lra) ltac:(cbn; lia) ltac:(cbn; lia) A5 A7 ltac:(cbn; lia)) in ON; try assumption.
  2:{ intros j Hj. apply A8. exact Hj. }
  destruct ON as (x & HX). change (nd_ny two_x) with 2 in HX.
  assert (KK : (16 <= K2 omega 1)%R).
  { unfold K2. assert (EO := ex_omega_pos). assert (ES := ex_omega_sq). assert (MP := MU_0_pos). assert (EP := EPSILON_0_pos). assert (PP : (0 < EPSILON_0 * MU_0)%R) by (apply Rmult_lt_0_compat; assumption).
    replace (omega ^ 2 * (MU_0 * 1) * (EPSILON_0 * 1))%R with (omega ^ 2 * (EPSILON_0 * MU_0))%R by ring. rewrite <- ES. apply Rmult_le_compat_r; [lra|]. apply pow_incr. lra. }
  assert (U0 := UP 0 ltac:(lia)). assert (U1 := UP 1 ltac:(lia)).
  assert (M0 := UM 0 ltac:(lia)). assert (M1 := UM 1 ltac:(lia)). assert (X0 := HX 0 ltac:(lia)). assert (X1 := HX 1 ltac:(lia)). cbv zeta in M0, M1, X0, X1. fold (K2 omega 1) in M0, M1, X0, X1. set (K := K2 omega 1) in *.
  change (next 2 0) with 1 in *. change (next 2 1) with 0 in *. change (prev 2 0) with 1 in *. change (prev 2 1) with 0 in *. unfold mean_prev in *. change (prev 2 0) with 1 in *. change (prev 2 1) with 0 in *.
  unfold between in *. change (String.eqb (md_normal col_mode) "x") with true in *. cbv iota in *. rewrite !OP in *. rewrite !two_x_at in * by lia. cbn [one_two] in *. change (String.eqb "Hz" "Ez") with false in *. cbv iota in *.
  apply (f_equal Re) in M0. apply (f_equal Re) in M1. apply (f_equal Re) in X0. apply (f_equal Re) in X1. destruct x as [x1 x2]. cbn in M0, M1, X0, X1.
  set (p := u 0) in *. set (r := u 1) in *.
  assert (E0 : (3 / 2 * (r - p) + K * p = b * p)%R) by (clear - M0; field_simplify in M0; field_simplify; lra).
  assert (E1 : (3 * (p - r) + 2 * K * r = b * r)%R) by (clear - M1; field_simplify in M1; field_simplify; lra).
  assert (F0 : (4 / 3 * (2 * r - p) + K * p = x1 * p)%R).
  { apply (Rmult_eq_reg_l q); [|exact Nq]. clear - X0. field_simplify in X0. field_simplify. lra. }
  assert (F1 : (8 / 3 * (p - 2 * r) + 4 * K * r = 2 * x1 * r)%R).
  { apply (Rmult_eq_reg_l q); [|exact Nq]. clear - X1. field_simplify in X1. field_simplify. lra. }
  assert (G0 : (r * (3 / 2 * (r - p) + K * p) - p * (3 * (p - r) + 2 * K * r) = 0)%R) by (rewrite E0, E1; ring).
  assert (G1 : (2 * r * (4 / 3 * (2 * r - p) + K * p) - p * (8 / 3 * (p - 2 * r) + 4 * K * r) = 0)%R) by (rewrite F0, F1; ring).
  assert (G2 : (p * (8 * p + r * (14 / 9 * K - 8 / 3)) = 0)%R).
  { transitivity ((2 * r * (4 / 3 * (2 * r - p) + K * p) - p * (8 / 3 * (p - 2 * r) + 4 * K * r)) - 32 / 9 * (r * (3 / 2 * (r - p) + K * p) - p * (3 * (p - r) + 2 * K * r)))%R; [field|]. rewrite G0, G1. ring. }
  assert (0 < p * (8 * p + r * (14 / 9 * K - 8 / 3)))%R; [|lra]. apply Rmult_lt_0_compat; [exact U0|]. apply Rplus_lt_0_compat; [lra|]. apply Rmult_lt_0_compat; lra.
Qed.
