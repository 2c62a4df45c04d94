(** C117: a mode source in a straight guide. *)
From Coq Require Import Reals Lra Lia List ZArith Arith Bool String Classical ClassicalEpsilon.
From Coquelicot Require Import Coquelicot.
From Verif Require Import Base Linear MCore MSim MFilter MOpt MMode Spec PCore PSim PropsCore PSym PropsSolve PEx PExOpt PropsFlux PMode PropsMode PropsSolv PropsOpt3.
Import ListNotations.
Local Open Scope nat_scope.

(** ** Separation of variables on a grid *)
(** the two-index equation  sum_i' a i i' E i' j + sum_j' t j j' E i j' = beta i * u j *)
Definition sep_eq (Nx Ny : nat) (a t : mat) (beta u : vec) (E : nat -> nat -> C) : Prop :=
  forall i j, i < Nx -> j < Ny -> (csum Nx (fun i' => a i i' * E i' j) + csum Ny (fun j' => t j j' * E i j') = beta i * u j)%C.
Definition eig (N : nat) (t : mat) (lam : C) (u : vec) : Prop := forall j, j < N -> csum N (fun j' => t j j' * u j')%C = (lam * u j)%C.

Lemma csum_real_sq N (u : nat -> R) : csum N (fun j => RtoC (u j) * RtoC (u j))%C = RtoC (rsum N (fun j => u j ^ 2)%R).
Proof. induction N; cbn [csum rsum]; [reflexivity|]. rewrite IHN, <- RtoC_mult, <- RtoC_plus. f_equal. ring. Qed.
Lemma rsum_sq_pos N (u : nat -> R) j : j < N -> u j <> 0%R -> (0 < rsum N (fun j => u j ^ 2))%R.
Proof.
  intros Hj H0. induction N; [lia|]. cbn [rsum]. assert (P : forall n, (0 <= rsum n (fun j => u j ^ 2))%R).
  { induction n; cbn [rsum]; [lra|]. assert (Q := pow2_ge_0 (u n)). lra. }
  destruct (Nat.eq_dec j N) as [->|]; [|assert (Q := pow2_ge_0 (u N)); assert (K := IHN ltac:(lia)); lra].
  assert (0 < u N ^ 2)%R by (assert (Q := pow2_ge_0 (u N)); assert (u N ^ 2 <> 0)%R by (apply pow_nonzero; exact H0); lra). assert (K := P N). lra.
Qed.

Lemma separate Nx Ny a t beta (u : vec) (ur : nat -> R) lam E :
  (forall j, j < Ny -> u j = RtoC (ur j)) -> (exists j, j < Ny /\ ur j <> 0%R) ->
  (forall j j', j < Ny -> j' < Ny -> t j j' = t j' j) -> eig Ny t lam u -> sep_eq Nx Ny a t beta u E ->
  (forall E', sep_eq Nx Ny a t beta u E' -> forall i j, i < Nx -> j < Ny -> E' i j = E i j) ->
  exists g, (forall i j, i < Nx -> j < Ny -> E i j = (g i * u j)%C) /\ forall i, i < Nx -> (csum Nx (fun i' => a i i' * g i') + lam * g i = beta i)%C.
Proof.
  intros HU (j0 & Hj0 & N0) HT HE HQ HO. set (S := rsum Ny (fun j => ur j ^ 2)%R).
  assert (SP : (0 < S)%R) by (apply (rsum_sq_pos Ny ur j0 Hj0 N0)). assert (SN : RtoC S <> RtoC 0) by (apply RtoC_neq0; lra).
  assert (SS : csum Ny (fun j => u j * u j)%C = RtoC S).
  { unfold S. rewrite <- csum_real_sq. apply csum_ext. intros j Hj. rewrite (HU j Hj). reflexivity. }
  set (g := fun i => (csum Ny (fun j => u j * E i j) / RtoC S)%C). exists g.
  assert (G : forall i, i < Nx -> (csum Nx (fun i' => a i i' * g i') + lam * g i = beta i)%C).
  { intros i Hi.
    assert (P : (csum Ny (fun j => u j * (csum Nx (fun i' => a i i' * E i' j) + csum Ny (fun j' => t j j' * E i j'))) = beta i * RtoC S)%C).
    { rewrite <- SS, <- csum_scal. apply csum_ext. intros j Hj. rewrite (HQ i j Hi Hj). ring. }
    rewrite (csum_ext Ny _ (fun j => (csum Nx (fun i' => u j * (a i i' * E i' j)) + csum Ny (fun j' => u j * (t j j' * E i j')))%C)) in P
      by (intros j Hj; rewrite !csum_scal; ring).
    rewrite csum_plus, csum_swap, (csum_swap Ny Ny) in P.
    rewrite (csum_ext Nx _ (fun i' => (a i i' * (RtoC S * g i'))%C)) in P.
    2:{ intros i' Hi'. unfold g. rewrite (csum_ext Ny _ (fun j => (a i i' * (u j * E i' j))%C)) by (intros; ring). rewrite csum_scal. field. exact SN. }
    rewrite (csum_ext Ny _ (fun j' => (lam * (u j' * E i j'))%C)) in P.
    2:{ intros j' Hj'. rewrite (csum_ext Ny _ (fun j => (t j' j * u j * E i j')%C)) by (intros j Hj; rewrite (HT j j') by assumption; ring).
        rewrite csum_scal_r. rewrite (HE j' Hj'). ring. }
    rewrite csum_scal in P. rewrite (csum_ext Nx _ (fun i' => (RtoC S * (a i i' * g i'))%C)) in P by (intros; ring). rewrite csum_scal in P.
    assert (Q : (csum Ny (fun j => u j * E i j) = RtoC S * g i)%C) by (unfold g; field; exact SN). rewrite Q in P.
    replace (beta i) with (beta i * RtoC S / RtoC S)%C by (field; exact SN). rewrite <- P. field. exact SN. }
  split; [|exact G]. intros i j Hi Hj. symmetry. apply (HO (fun i j => (g i * u j)%C)); [|assumption|assumption].
  intros i' j' Hi' Hj'. rewrite (csum_ext Nx _ (fun i'' => (a i' i'' * g i'' * u j')%C)) by (intros; ring). rewrite csum_scal_r.
  rewrite (csum_ext Ny _ (fun j'' => (g i' * (t j' j'' * u j''))%C)) by (intros; ring). rewrite csum_scal, (HE j' Hj'), <- (G i' Hi'). ring.
Qed.

(** the profile is kept only if it belongs to a mode *)
Lemma separate_only Nx Ny a t beta u E g : sep_eq Nx Ny a t beta u E -> (forall i j, i < Nx -> j < Ny -> E i j = (g i * u j)%C) ->
  (exists i j, i < Nx /\ j < Ny /\ (beta i * u j)%C <> RtoC 0) -> exists lam, eig Ny t lam u.
Proof.
  intros HQ HE (i0 & j0 & Hi0 & Hj0 & N0).
  assert (Q : forall i j, i < Nx -> j < Ny -> (u j * csum Nx (fun i' => a i i' * g i') + g i * csum Ny (fun j' => t j j' * u j') = beta i * u j)%C).
  { intros i j Hi Hj. rewrite <- (HQ i j Hi Hj). f_equal.
    - rewrite <- csum_scal. apply csum_ext. intros i' Hi'. rewrite HE by assumption. ring.
    - rewrite <- csum_scal. apply csum_ext. intros j' Hj'. rewrite HE by assumption. ring. }
  assert (X : exists i, i < Nx /\ g i <> RtoC 0).
  { apply NNPP. intro NX. apply N0. rewrite <- (Q i0 j0 Hi0 Hj0).
    assert (Z : forall i, i < Nx -> g i = RtoC 0) by (intros i Hi; apply NNPP; intro K; apply NX; eauto).
    rewrite (Z i0 Hi0). rewrite csum_0; [ring|]. intros k Hk. rewrite (Z k Hk). ring. }
  destruct X as (i & Hi & Gi). exists ((beta i - csum Nx (fun i' => a i i' * g i')) / g i)%C. intros j Hj.
  assert (K := Q i j Hi Hj). set (T := csum Ny (fun j' => t j j' * u j')%C) in *. set (X := csum Nx (fun i' => a i i' * g i')%C) in *.
  replace T with ((u j * X + g i * T - u j * X) / g i)%C by (field; exact Gi). rewrite K. field. exact Gi.
Qed.

(** ** The matrix of a straight guide *)
(** second difference along a periodic axis *)
Definition second_diff (dl : R) (N : nat) (u : nat -> C) (j : nat) : C := ((u (next N j) - RtoC 2 * u j + u (prev N j)) / RtoC (dl ^ 2))%C.
Definition along (omega L0 : R) (range : R * R) (d : R) (N Np : nat) : mat :=
  mm N (axis_op_pml Fwd omega L0 range d N Np) (axis_op_pml Bwd omega L0 range d N Np).

Lemma pax_csum s omega L0 r d N Np u i : d <> 0%R -> i < N -> csum N (fun c => axis_op_pml s omega L0 r d N Np i c * u c)%C = pax s omega L0 r d N Np u i.
Proof.
  intros Hd Hi. unfold pax. rewrite <- (ax_form s d N u i Hd Hi), <- csum_scal. apply csum_ext. intros c Hc. unfold axis_op_pml. ring.
Qed.
Lemma along_form omega L0 r d N Np u i : d <> 0%R -> i < N ->
  csum N (fun c => along omega L0 r d N Np i c * u c)%C = pax Fwd omega L0 r d N Np (pax Bwd omega L0 r d N Np u) i.
Proof.
  intros Hd Hi. change (mv N (along omega L0 r d N Np) u i = pax Fwd omega L0 r d N Np (pax Bwd omega L0 r d N Np u) i). unfold along. rewrite mv_mm.
  unfold mv at 1. rewrite pax_csum by assumption. apply pax_ext; [exact Hi|]. intros k Hk. unfold mv. apply pax_csum; assumption.
Qed.
Lemma ax_second dl N u j : dl <> 0%R -> 2 <= N -> j < N -> ax Fwd dl N (ax Bwd dl N u) j = second_diff dl N u j.
Proof.
  intros Hd HN Hj. unfold ax, second_diff. rewrite (proj2 (Nat.ltb_lt 1 N)) by lia. rewrite prev_next by assumption.
  assert (RtoC dl <> RtoC 0) by (apply RtoC_neq0; exact Hd). replace (RtoC (dl ^ 2)) with (RtoC dl * RtoC dl)%C by (rewrite <- RtoC_mult; f_equal; ring). replace (RtoC 2) with (RtoC 1 + RtoC 1)%C by (rewrite <- RtoC_plus; f_equal; ring). field. assumption.
Qed.
Lemma mode_form s (L : nd R) u j : s_pol s = PolEz -> s_dl s <> 0%R -> 2 <= nd_size L -> j < nd_size L ->
  csum (nd_size L) (fun c => mode_matrix s L j c * u c)%C =
  (RtoC (s_omega s ^ 2 * (MU_0 * s_L0 s) * (EPSILON_0 * s_L0 s * nd_buf L j)) * u j + second_diff (s_dl s) (nd_size L) u j)%C.
Proof.
  intros HP Hd HN Hj. set (N := nd_size L) in *. change (mv N (mode_matrix s L) u j = (RtoC (s_omega s ^ 2 * (MU_0 * s_L0 s) * (EPSILON_0 * s_L0 s * nd_buf L j)) * u j + second_diff (s_dl s) N u j)%C).
  unfold mode_matrix. rewrite HP. cbv zeta. fold N. rewrite mv_mplus, mv_mscal. change (spdiags ?f) with (mdiag f). rewrite mv_diag by exact Hj. rewrite mv_mm.
  assert (D : forall sd w k, k < N -> mv N (createDws AxX sd (s_dl s) 1 N 1) w k = ax sd (s_dl s) N w k).
  { intros sd w k Hk. assert (F := Dx_form sd (s_dl s) 1%R N 1 w k 0 Hk ltac:(lia)). rewrite !Nat.mul_1_r, !Nat.add_0_r in F. rewrite F.
    rewrite <- (ax_form sd (s_dl s) N w k Hd Hk). apply csum_ext. intros c Hc. do 2 f_equal. lia. }
  rewrite D by exact Hj.
  rewrite (ax_ext Fwd (s_dl s) N (mv N (createDws AxX Bwd (s_dl s) 1 N 1) u) (ax Bwd (s_dl s) N u) j Hj) by (intros k Hk; apply D; exact Hk).
  rewrite ax_second by assumption. f_equal. rewrite Cmult_assoc, <- RtoC_mult. reflexivity.
Qed.
Lemma mode_sym s (L : nd R) r c : s_pol s = PolEz -> mode_matrix s L r c = mode_matrix s L c r.
Proof.
  intro HP. unfold mode_matrix. rewrite HP. cbv zeta. set (N := nd_size L). unfold mplus, mscal, mm, spdiags. f_equal.
  - f_equal. unfold mdiag. rewrite (Nat.eqb_sym c r). destruct (Nat.eqb_spec r c) as [->|]; reflexivity.
  - apply csum_ext. intros k Hk. rewrite (Dws_transpose AxX (s_dl s) 1 N 1 r k), (Dws_transpose AxX (s_dl s) 1 N 1 c k).
    assert (K : (sgn_axis AxX N 1 * sgn_axis AxX N 1 = RtoC 1)%C) by (unfold sgn_axis; destruct (Nat.ltb 1 N); ring). 
    ring.
Qed.

(** the system of a guide that is uniform along x, without absorbing layer in y *)
Lemma guide_x omega eps dl px L0 s (L : nd R) x i j : Simulation omega eps dl (Some [px; 0]%Z) "Ez" L0 = Ok s -> (0 < dl)%R ->
  2 <= nd_ny eps -> nd_size L = nd_ny eps -> i < nd_nx eps -> j < nd_ny eps -> nd_buf L j = nd_at eps i j ->
  mv (nd_nx eps * nd_ny eps) (s_A s) x (pix (nd_ny eps) i j) =
  (RtoC (1 / (MU_0 * L0)) * (csum (nd_nx eps) (fun c => along omega L0 (0, INR (nd_nx eps) * dl)%R dl (nd_nx eps) (Z.to_nat px) i c * x (pix (nd_ny eps) c j))
     + csum (nd_ny eps) (fun c => mode_matrix s L j c * x (pix (nd_ny eps) i c))))%C.
Proof.
  intros HS Hd HN EL Hi Hj EB. destruct (Simulation_matrix _ _ _ _ _ _ _ HS) as (px' & py & E & HM & Hw & HL & HA). injection E as <- <-. rewrite HA. cbn [String.eqb Ascii.eqb Bool.eqb].
  assert (SL : s_pol s = PolEz /\ s_dl s = dl /\ s_omega s = omega /\ s_L0 s = L0).
  { revert HS. unfold Simulation, check_inputs. destruct (Rlt_dec 0 L0); [|discriminate]. destruct (Rlt_dec 0 omega); [|discriminate]. cbn [andb].
    destruct (Z.leb 0 px && Z.leb 0 0)%bool; [|discriminate]. cbn. intro Q. injection Q as <-. auto. }
  destruct SL as (S1 & S2 & S3 & S4). set (Nx := nd_nx eps) in *. set (Ny := nd_ny eps) in *.
  assert (PX : INR Nx <> 0%R) by (apply not_0_INR; lia). assert (PY : INR Ny <> 0%R) by (apply not_0_INR; lia).
  assert (D1 : fst (dL Nx Ny (0, INR Nx * dl)%R (0, INR Ny * dl)%R) = dl) by (cbn; field; exact PX).
  assert (D2 : snd (dL Nx Ny (0, INR Nx * dl)%R (0, INR Ny * dl)%R) = dl) by (cbn; field; exact PY).
  rewrite A_grid by (rewrite ?D1, ?D2; assumption || lra). rewrite D1, D2. cbn [fst snd Ax_g Ay_g Ad_g].
  rewrite along_form by (assumption || lra). rewrite !pax_scal by lra.
  rewrite <- EL, mode_form by (rewrite ?S2, ?EL; assumption || lra). rewrite EL, S2, S3, S4, EB.
  assert (Q : pax Fwd omega L0 (0, INR Ny * dl)%R dl Ny 0 (pax Bwd omega L0 (0, INR Ny * dl)%R dl Ny 0 (fun c => x (pix Ny i c))) j = second_diff dl Ny (fun c => x (pix Ny i c)) j).
  { rewrite pax_no_pml. rewrite (ax_ext Fwd dl Ny _ (ax Bwd dl Ny (fun c => x (pix Ny i c))) j Hj) by (intros; apply pax_no_pml). apply ax_second; (assumption || lra). }
  change (Z.to_nat 0) with 0. rewrite Q. unfold cvec. change (nd_buf eps (pix Ny i j)) with (nd_at eps i j).
  assert (MP := MU_0_pos). assert (K : (MU_0 * L0 <> 0)%R) by (apply Rgt_not_eq; apply Rmult_lt_0_compat; assumption).
  assert (R : (RtoC (omega ^ 2) * (RtoC (EPSILON_0 * L0) * RtoC (nd_at eps i j)) = RtoC (1 / (MU_0 * L0)) * RtoC (omega ^ 2 * (MU_0 * L0) * (EPSILON_0 * L0 * nd_at eps i j)))%C).
  { rewrite <- !RtoC_mult. f_equal. field. split; lra. }
  rewrite R. ring.
Qed.
(** ... uniform along y, without absorbing layer in x *)
Lemma guide_y omega eps dl py L0 s (L : nd R) x i j : Simulation omega eps dl (Some [0; py]%Z) "Ez" L0 = Ok s -> (0 < dl)%R ->
  2 <= nd_nx eps -> nd_size L = nd_nx eps -> i < nd_nx eps -> j < nd_ny eps -> nd_buf L i = nd_at eps i j ->
  mv (nd_nx eps * nd_ny eps) (s_A s) x (pix (nd_ny eps) i j) =
  (RtoC (1 / (MU_0 * L0)) * (csum (nd_ny eps) (fun c => along omega L0 (0, INR (nd_ny eps) * dl)%R dl (nd_ny eps) (Z.to_nat py) j c * x (pix (nd_ny eps) i c))
     + csum (nd_nx eps) (fun c => mode_matrix s L i c * x (pix (nd_ny eps) c j))))%C.
Proof.
  intros HS Hd HN EL Hi Hj EB. destruct (Simulation_matrix _ _ _ _ _ _ _ HS) as (px' & py' & E & HM & Hw & HL & HA). injection E as <- <-. rewrite HA. cbn [String.eqb Ascii.eqb Bool.eqb].
  assert (SL : s_pol s = PolEz /\ s_dl s = dl /\ s_omega s = omega /\ s_L0 s = L0).
  { revert HS. unfold Simulation, check_inputs. destruct (Rlt_dec 0 L0); [|discriminate]. destruct (Rlt_dec 0 omega); [|discriminate]. cbn [andb].
    destruct (Z.leb 0 0 && Z.leb 0 py)%bool; [|discriminate]. cbn. intro Q. injection Q as <-. auto. }
  destruct SL as (S1 & S2 & S3 & S4). set (Nx := nd_nx eps) in *. set (Ny := nd_ny eps) in *.
  assert (PX : INR Nx <> 0%R) by (apply not_0_INR; lia). assert (PY : INR Ny <> 0%R) by (apply not_0_INR; lia).
  assert (D1 : fst (dL Nx Ny (0, INR Nx * dl)%R (0, INR Ny * dl)%R) = dl) by (cbn; field; exact PX).
  assert (D2 : snd (dL Nx Ny (0, INR Nx * dl)%R (0, INR Ny * dl)%R) = dl) by (cbn; field; exact PY).
  rewrite A_grid by (rewrite ?D1, ?D2; assumption || lra). rewrite D1, D2. cbn [fst snd Ax_g Ay_g Ad_g].
  rewrite along_form by (assumption || lra). rewrite !pax_scal by lra.
  rewrite <- EL, mode_form by (rewrite ?S2, ?EL; assumption || lra). rewrite EL, S2, S3, S4, EB.
  assert (Q : pax Fwd omega L0 (0, INR Nx * dl)%R dl Nx 0 (pax Bwd omega L0 (0, INR Nx * dl)%R dl Nx 0 (fun c => x (pix Ny c j))) i = second_diff dl Nx (fun c => x (pix Ny c j)) i).
  { rewrite pax_no_pml. rewrite (ax_ext Fwd dl Nx _ (ax Bwd dl Nx (fun c => x (pix Ny c j))) i Hi) by (intros; apply pax_no_pml). apply ax_second; (assumption || lra). }
  change (Z.to_nat 0) with 0. rewrite Q. unfold cvec. change (nd_buf eps (pix Ny i j)) with (nd_at eps i j).
  assert (MP := MU_0_pos). assert (K : (MU_0 * L0 <> 0)%R) by (apply Rgt_not_eq; apply Rmult_lt_0_compat; assumption).
  assert (R : (RtoC (omega ^ 2) * (RtoC (EPSILON_0 * L0) * RtoC (nd_at eps i j)) = RtoC (1 / (MU_0 * L0)) * RtoC (omega ^ 2 * (MU_0 * L0) * (EPSILON_0 * L0 * nd_at eps i j)))%C).
  { rewrite <- !RtoC_mult. f_equal. field. split; lra. }
  rewrite R. ring.
Qed.

(** ** Specification of C117 *)
(** the structure does not change along x (along y) *)
Definition straight_along_x (eps : nd R) : Prop := forall i i' j, i < nd_nx eps -> i' < nd_nx eps -> j < nd_ny eps -> nd_at eps i j = nd_at eps i' j.
Definition straight_along_y (eps : nd R) : Prop := forall i j j', i < nd_nx eps -> j < nd_ny eps -> j' < nd_ny eps -> nd_at eps i j = nd_at eps i j'.
(** the source line of the mode is the whole column c (the whole row c) *)
Definition fills_column (m : mode) (Nx Ny c : nat) : Prop := md_normal m = "x"%string /\ c < Nx /\ forall i j, i < Nx -> j < Ny -> (on_line m Nx Ny i j <-> i = c).
Definition fills_row (m : mode) (Nx Ny c : nat) : Prop := md_normal m = "y"%string /\ c < Ny /\ forall i j, i < Nx -> j < Ny -> (on_line m Nx Ny i j <-> j = c).
(** u is the profile of a mode of a guide of N pixels of permittivity n2 j across: the wave equation
    u'' + (omega^2 MU_0 EPSILON_0 n2) u = beta2 u on the grid, beta2 the square of the propagation constant *)
Definition guided (omega dl L0 : R) (N : nat) (n2 : nat -> R) (beta2 : C) (u : nat -> C) : Prop :=
  forall j, j < N -> (second_diff dl N u j + RtoC (omega ^ 2 * (MU_0 * L0) * (EPSILON_0 * L0) * n2 j) * u j = beta2 * u j)%C.
(** the entries of v have a common phase, or the opposite one *)
Definition one_phase (N : nat) (v : vec) : Prop := exists (z : C) (r : nat -> R), forall k, k < N -> v k = (z * RtoC (r k))%C.

(** what is written for an eigenvector of one phase is a real multiple of it *)
Lemma profile_multiple sc N v z r : (forall k, k < N -> v k = (z * RtoC (r k))%C) ->
  exists q, forall k, k < N -> mode_profile sc v k = RtoC (q * r k).
Proof.
  intro H. exists (Cmod z * np_sign (Re z) * sc)%R. intros k Hk. unfold mode_profile. f_equal. rewrite (H k Hk).
  replace (z * RtoC (r k) * RtoC sc)%C with (z * RtoC (r k * sc))%C by (rewrite RtoC_mult; ring). rewrite Cmod_mult, Cmod_R.
  replace (Re (z * RtoC (r k * sc))%C) with ((r k * sc) * Re z)%R by (autorewrite with reim; cbn [Re Im RtoC fst snd]; ring).
  rewrite np_sign_mult. assert (Q : (Rabs (r k * sc) * np_sign (r k * sc) = r k * sc)%R).
  { destruct (np_sign_cases (r k * sc)) as [[P ->]|[[P ->]|[P ->]]].
    - rewrite Rabs_left by exact P. ring.
    - rewrite P. ring.
    - rewrite Rabs_pos_eq by lra. ring. }
  replace (Cmod z * Rabs (r k * sc) * (np_sign (r k * sc) * np_sign (Re z)))%R with (Cmod z * np_sign (Re z) * (Rabs (r k * sc) * np_sign (r k * sc)))%R by ring. rewrite Q. ring.
Qed.

(** the slots of a new simulation *)
Lemma fresh_slots omega eps dl np p L0 s : Simulation omega eps dl np p L0 = Ok s ->
  nd_nx (s_src s) = nd_nx eps /\ nd_ny (s_src s) = nd_ny eps /\ (forall k, nd_buf (s_src s) k = RtoC 0) /\ s_eps s = eps /\ s_Nx s = nd_nx eps /\ s_Ny s = nd_ny eps /\
  s_omega s = omega /\ s_L0 s = L0 /\ s_dl s = dl /\ s_modes s = [].
Proof.
  unfold Simulation, check_inputs. destruct (Rlt_dec 0 L0); [|discriminate]. destruct (Rlt_dec 0 omega); [|discriminate]. cbn [andb].
  destruct np as [[|a [|b [|]]]|]; try discriminate. destruct (Z.leb 0 a && Z.leb 0 b)%bool; [|discriminate]. destruct (_ || _)%bool; [|discriminate]. intro E. injection E as <-. repeat split; reflexivity.
Qed.

Lemma slice_bound_le N i : slice_bound N i <= N.
Proof. unfold slice_bound. destruct (Z.ltb_spec i 0); lia. Qed.
Lemma insert_inv e m s dest src : insert_mode e m s dest = Ok src ->
  exists i0 i1 j0 j1 v, let L := nd_slice (s_eps s) i0 i1 j0 j1 in
    line_inds (md_normal m) (md_center m) (md_width m) = Ok (i0, i1, j0, j1) /\ nd_size L <> O /\
    e_eigs e (nd_size L) (mode_matrix s L) (md_order m) (beta2 m s) = Ok v /\
    nd_assign dest i0 i1 j0 j1 (if String.eqb (md_normal m) "x" then mkNd 1 (nd_size L) (mode_profile (md_scale m) v) else mkNd (nd_size L) 1 (mode_profile (md_scale m) v)) = Ok src.
Proof.
  intro EI. unfold insert_mode in EI. destruct (line_inds _ _ _) as [[[[i0 i1] j0] j1]|] eqn:EL; [|discriminate]. cbv zeta in EI.
  destruct (Nat.eqb_spec (nd_size (nd_slice (s_eps s) i0 i1 j0 j1)) 0) as [|HZ]; [discriminate|].
  destruct (e_eigs _ _ _ _ _) as [v|] eqn:EE; [|discriminate]. exists i0, i1, j0, j1, v. auto.
Qed.
(** the line of a mode that fills a column, and what is written on it *)
Lemma column_source e m s dest src c : insert_mode e m s dest = Ok src -> fills_column m (nd_nx (s_eps s)) (nd_ny (s_eps s)) c -> 2 <= nd_ny (s_eps s) ->
  nd_nx dest = nd_nx (s_eps s) -> nd_ny dest = nd_ny (s_eps s) ->
  exists (L : nd R) v, nd_size L = nd_ny (s_eps s) /\ (forall j, j < nd_ny (s_eps s) -> nd_buf L j = nd_at (s_eps s) c j) /\
    e_eigs e (nd_ny (s_eps s)) (mode_matrix s L) (md_order m) (beta2 m s) = Ok v /\ nd_nx src = nd_nx (s_eps s) /\ nd_ny src = nd_ny (s_eps s) /\
    forall i j, i < nd_nx (s_eps s) -> j < nd_ny (s_eps s) -> nd_at src i j = if Nat.eqb i c then mode_profile (md_scale m) v j else nd_at dest i j.
Proof.
  intros H (HN & Hc & HL) HY SX SY. apply insert_inv in H as (i0 & i1 & j0 & j1 & v & EL & HZ & EE & EA). cbv zeta in *.
  set (Nx := nd_nx (s_eps s)) in *. set (Ny := nd_ny (s_eps s)) in *.
  assert (O : forall i j, i < Nx -> j < Ny -> (slice_bound Nx i0 <= i < slice_bound Nx i1 /\ slice_bound Ny j0 <= j < slice_bound Ny j1) <-> i = c).
  { intros i j Hi Hj. rewrite <- (HL i j Hi Hj). rewrite <- !in_slice_bounds. unfold line_inds in EL. rewrite HN in EL. change (String.eqb "x" "x") with true in EL. injection EL as <- <- <- <-.
    unfold on_line. destruct (md_center m) as [c0 c1]. cbn [fst snd]. split; [intros [A B]; left; auto|]. intros [(_ & A & B)|(A & _)]; [auto|]. rewrite HN in A. discriminate. }
  assert (BX := slice_bound_le Nx i0). assert (BX' := slice_bound_le Nx i1). assert (BY := slice_bound_le Ny j0). assert (BY' := slice_bound_le Ny j1).
  assert (P1 := proj2 (O c 0 Hc ltac:(lia)) eq_refl). assert (P2 := proj2 (O c (Ny - 1) Hc ltac:(lia)) eq_refl).
  assert (Y0 : slice_bound Ny j0 = 0) by lia. assert (Y1 : slice_bound Ny j1 = Ny) by lia.
  assert (X0 : slice_bound Nx i0 = c). { assert (K := proj1 (O (slice_bound Nx i0) 0 ltac:(lia) ltac:(lia))). lia. }
  assert (X1 : slice_bound Nx i1 = S c). { assert (K := proj1 (O (slice_bound Nx i1 - 1) 0 ltac:(lia) ltac:(lia))). lia. }
  set (L := nd_slice (s_eps s) i0 i1 j0 j1) in *.
  assert (LS : nd_size L = Ny). { unfold L, nd_size, nd_slice. cbn [nd_nx nd_ny]. fold Nx Ny. rewrite X0, X1, Y0, Y1. lia. }
  exists L, v. split; [exact LS|]. split.
  { intros j Hj. unfold L, nd_slice. cbn [nd_buf]. fold Nx Ny. rewrite X0, Y0, Y1, Nat.sub_0_r, Nat.div_small, Nat.mod_small by exact Hj. f_equal; lia. }
  split; [rewrite <- LS; exact EE|].
  assert (D := fun i j Hj => assign_at _ _ _ _ _ _ _ i j EA Hj). rewrite SX, SY in D. split; [exact (proj1 (D 0 0 ltac:(lia)))|]. split; [exact (proj1 (proj2 (D 0 0 ltac:(lia))))|].
  intros i j Hi Hj. destruct (D i j Hj) as (_ & _ & A1 & A2). rewrite !in_slice_bounds, O in A1, A2 by assumption. destruct (Nat.eqb_spec i c) as [E|E]; [|apply A2; exact E].
  rewrite (A1 E), HN. change (String.eqb "x" "x") with true. cbn [nd_nx nd_ny]. rewrite LS, Y0, Nat.sub_0_r. unfold bidx. cbn [Nat.eqb]. destruct (Nat.eqb_spec Ny 1); [lia|]. unfold nd_at. cbn [nd_buf nd_ny]. f_equal.
Qed.
Lemma row_source e m s dest src c : insert_mode e m s dest = Ok src -> fills_row m (nd_nx (s_eps s)) (nd_ny (s_eps s)) c -> 2 <= nd_nx (s_eps s) ->
  nd_nx dest = nd_nx (s_eps s) -> nd_ny dest = nd_ny (s_eps s) ->
  exists (L : nd R) v, nd_size L = nd_nx (s_eps s) /\ (forall i, i < nd_nx (s_eps s) -> nd_buf L i = nd_at (s_eps s) i c) /\
    e_eigs e (nd_nx (s_eps s)) (mode_matrix s L) (md_order m) (beta2 m s) = Ok v /\ nd_nx src = nd_nx (s_eps s) /\ nd_ny src = nd_ny (s_eps s) /\
    forall i j, i < nd_nx (s_eps s) -> j < nd_ny (s_eps s) -> nd_at src i j = if Nat.eqb j c then mode_profile (md_scale m) v i else nd_at dest i j.
Proof.
  intros H (HN & Hc & HL) HX SX SY. apply insert_inv in H as (i0 & i1 & j0 & j1 & v & EL & HZ & EE & EA). cbv zeta in *.
  set (Nx := nd_nx (s_eps s)) in *. set (Ny := nd_ny (s_eps s)) in *.
  assert (O : forall i j, i < Nx -> j < Ny -> (slice_bound Nx i0 <= i < slice_bound Nx i1 /\ slice_bound Ny j0 <= j < slice_bound Ny j1) <-> j = c).
  { intros i j Hi Hj. rewrite <- (HL i j Hi Hj). rewrite <- !in_slice_bounds. unfold line_inds in EL. rewrite HN in EL. change (String.eqb "y" "x") with false in EL. change (String.eqb "y" "y") with true in EL. injection EL as <- <- <- <-.
    unfold on_line. destruct (md_center m) as [c0 c1]. cbn [fst snd]. split; [intros [A B]; right; auto|]. intros [(A & _)|(_ & A & B)]; [|auto]. rewrite HN in A. discriminate. }
  assert (BX := slice_bound_le Nx i0). assert (BX' := slice_bound_le Nx i1). assert (BY := slice_bound_le Ny j0). assert (BY' := slice_bound_le Ny j1).
  assert (P1 := proj2 (O 0 c ltac:(lia) Hc) eq_refl). assert (P2 := proj2 (O (Nx - 1) c ltac:(lia) Hc) eq_refl).
  assert (X0 : slice_bound Nx i0 = 0) by lia. assert (X1 : slice_bound Nx i1 = Nx) by lia.
  assert (Y0 : slice_bound Ny j0 = c). { assert (K := proj1 (O 0 (slice_bound Ny j0) ltac:(lia) ltac:(lia))). lia. }
  assert (Y1 : slice_bound Ny j1 = S c). { assert (K := proj1 (O 0 (slice_bound Ny j1 - 1) ltac:(lia) ltac:(lia))). lia. }
  set (L := nd_slice (s_eps s) i0 i1 j0 j1) in *.
  assert (LS : nd_size L = Nx). { unfold L, nd_size, nd_slice. cbn [nd_nx nd_ny]. fold Nx Ny. rewrite X0, X1, Y0, Y1. lia. }
  exists L, v. split; [exact LS|]. split.
  { intros i Hi. unfold L, nd_slice. cbn [nd_buf]. fold Nx Ny. rewrite X0, Y0, Y1. replace (S c - c) with 1 by lia. rewrite Nat.div_1_r, Nat.mod_1_r. f_equal; lia. }
  split; [rewrite <- LS; exact EE|].
  assert (D := fun i j Hj => assign_at _ _ _ _ _ _ _ i j EA Hj). rewrite SX, SY in D. split; [exact (proj1 (D 0 0 ltac:(lia)))|]. split; [exact (proj1 (proj2 (D 0 0 ltac:(lia))))|].
  intros i j Hi Hj. destruct (D i j Hj) as (_ & _ & A1 & A2). rewrite !in_slice_bounds, O in A1, A2 by assumption. destruct (Nat.eqb_spec j c) as [E|E]; [|apply A2; exact E].
  rewrite (A1 E), HN. change (String.eqb "y" "x") with false. cbn [nd_nx nd_ny]. rewrite LS, X0, Nat.sub_0_r. unfold bidx. cbn [Nat.eqb]. destruct (Nat.eqb_spec Nx 1); [lia|]. unfold nd_at. cbn [nd_buf nd_ny]. f_equal. lia.
Qed.

(** pixels whose equation is free of absorbing layers of Np pixels at both ends of an axis of N *)
Definition outside_layers (N Np i : nat) : Prop := Np = 0 \/ (Np < i /\ i + 1 + Np <= N).
Lemma along_free omega L0 r d N Np u i : d <> 0%R -> 2 <= N -> i < N -> outside_layers N Np i ->
  csum N (fun c => along omega L0 r d N Np i c * u c)%C = second_diff d N u i.
Proof.
  intros Hd HN Hi HO. rewrite along_form by assumption. rewrite <- ax_second by assumption.
  assert (SF : forall sd, create_sfactor r L0 sd omega N Np i = RtoC 1 /\ create_sfactor r L0 sd omega N Np (next N i) = RtoC 1).
  { intro sd. destruct HO as [->|[A B]]; [split; apply sfactor_no_pml|]. destruct (Nat.eq_dec Np 0) as [->|]; [split; apply sfactor_no_pml|].
    assert (next N i = i + 1) as -> by (unfold next; destruct (Nat.eqb_spec (S i) N); lia). split; apply sfactor_interior; lia. }
  unfold pax at 1. rewrite (proj1 (SF Fwd)). unfold ax at 1 2. rewrite (proj2 (Nat.ltb_lt 1 N)) by lia.
  unfold pax. rewrite (proj1 (SF Bwd)), (proj2 (SF Bwd)). assert (RtoC 1 <> RtoC 0) by (apply RtoC_neq0; lra). assert (RtoC d <> RtoC 0) by (apply RtoC_neq0; exact Hd). field. split; assumption.
Qed.
Lemma pix_i Ny i j : j < Ny -> pix Ny i j / Ny = i /\ pix Ny i j mod Ny = j.
Proof. intro H. unfold pix. split; [apply flat_div|apply flat_mod]; exact H. Qed.
Lemma Ez_slots omega eps dl np L0 s : Simulation omega eps dl np "Ez" L0 = Ok s -> s_pol s = PolEz /\ s_dl s = dl /\ s_omega s = omega /\ s_L0 s = L0.
Proof.
  unfold Simulation, check_inputs. destruct (Rlt_dec 0 L0); [|discriminate]. destruct (Rlt_dec 0 omega); [|discriminate]. cbn [andb].
  destruct np as [[|a [|b [|]]]|]; try discriminate. destruct (Z.leb 0 a && Z.leb 0 b)%bool; [|discriminate]. cbn. intro Q. injection Q as <-. auto.
Qed.
Definition drive (omega L0 : R) (c i : nat) : C := if Nat.eqb i c then (Ci * RtoC (omega * (MU_0 * L0)))%C else RtoC 0.
(** the field of a source P on column c of a straight guide *)
Lemma column_sep omega eps dl px L0 s (L : nd R) c (P : nat -> C) b X : Simulation omega eps dl (Some [px; 0]%Z) "Ez" L0 = Ok s -> (0 < dl)%R ->
  2 <= nd_ny eps -> nd_size L = nd_ny eps -> straight_along_x eps -> c < nd_nx eps -> (forall j, j < nd_ny eps -> nd_buf L j = nd_at eps c j) ->
  (forall i j, i < nd_nx eps -> j < nd_ny eps -> b (pix (nd_ny eps) i j) = ((if Nat.eqb i c then P j else RtoC 0) * Ci * RtoC omega)%C) ->
  solves (nd_nx eps * nd_ny eps) (s_A s) X b <->
  sep_eq (nd_nx eps) (nd_ny eps) (along omega L0 (0, INR (nd_nx eps) * dl)%R dl (nd_nx eps) (Z.to_nat px)) (mode_matrix s L) (drive omega L0 c) P (fun i j => X (pix (nd_ny eps) i j)).
Proof.
  intros HS Hd HN EL ST Hc EB HB. set (Nx := nd_nx eps) in *. set (Ny := nd_ny eps) in *.
  destruct (Simulation_matrix _ _ _ _ _ _ _ HS) as (_ & _ & _ & _ & Hw & HL & _). assert (MP := MU_0_pos). assert (K : (0 < MU_0 * L0)%R) by (apply Rmult_lt_0_compat; assumption).
  assert (KN : RtoC (MU_0 * L0) <> RtoC 0) by (apply RtoC_neq0; lra).
  assert (G : forall i j, i < Nx -> j < Ny -> mv (Nx * Ny) (s_A s) X (pix Ny i j) = (RtoC (1 / (MU_0 * L0)) * (csum Nx (fun i' => along omega L0 (0, INR Nx * dl)%R dl Nx (Z.to_nat px) i i' * X (pix Ny i' j)) + csum Ny (fun j' => mode_matrix s L j j' * X (pix Ny i j'))))%C).
  { intros i j Hi Hj. apply guide_x; try assumption. rewrite (EB j Hj). apply ST; assumption. }
  assert (V : RtoC (1 / (MU_0 * L0)) = (RtoC 1 / RtoC (MU_0 * L0))%C) by (apply RtoC_div; lra).
  rewrite solves_grid. unfold sep_eq, drive. rewrite (RtoC_mult omega (MU_0 * L0)). split; intros H i j Hi Hj; specialize (H i j Hi Hj).
  - rewrite G, HB, V in H by assumption. set (Z := (csum Nx _ + csum Ny _)%C) in *. replace Z with (RtoC (MU_0 * L0) * (RtoC 1 / RtoC (MU_0 * L0) * Z))%C by (field; exact KN). rewrite H. destruct (Nat.eqb i c); ring.
  - rewrite G, HB, V by assumption. rewrite H. destruct (Nat.eqb i c); field; exact KN.
Qed.
Lemma row_sep omega eps dl py L0 s (L : nd R) c (P : nat -> C) b X : Simulation omega eps dl (Some [0; py]%Z) "Ez" L0 = Ok s -> (0 < dl)%R ->
  2 <= nd_nx eps -> nd_size L = nd_nx eps -> straight_along_y eps -> c < nd_ny eps -> (forall i, i < nd_nx eps -> nd_buf L i = nd_at eps i c) ->
  (forall i j, i < nd_nx eps -> j < nd_ny eps -> b (pix (nd_ny eps) i j) = ((if Nat.eqb j c then P i else RtoC 0) * Ci * RtoC omega)%C) ->
  solves (nd_nx eps * nd_ny eps) (s_A s) X b <->
  sep_eq (nd_ny eps) (nd_nx eps) (along omega L0 (0, INR (nd_ny eps) * dl)%R dl (nd_ny eps) (Z.to_nat py)) (mode_matrix s L) (drive omega L0 c) P (fun j i => X (pix (nd_ny eps) i j)).
Proof.
  intros HS Hd HN EL ST Hc EB HB. set (Nx := nd_nx eps) in *. set (Ny := nd_ny eps) in *.
  destruct (Simulation_matrix _ _ _ _ _ _ _ HS) as (_ & _ & _ & _ & Hw & HL & _). assert (MP := MU_0_pos). assert (K : (0 < MU_0 * L0)%R) by (apply Rmult_lt_0_compat; assumption).
  assert (KN : RtoC (MU_0 * L0) <> RtoC 0) by (apply RtoC_neq0; lra).
  assert (G : forall i j, i < Nx -> j < Ny -> mv (Nx * Ny) (s_A s) X (pix Ny i j) = (RtoC (1 / (MU_0 * L0)) * (csum Ny (fun i' => along omega L0 (0, INR Ny * dl)%R dl Ny (Z.to_nat py) j i' * X (pix Ny i i')) + csum Nx (fun j' => mode_matrix s L i j' * X (pix Ny j' j))))%C).
  { intros i j Hi Hj. apply guide_y; try assumption. rewrite (EB i Hi). apply ST; assumption. }
  assert (V : RtoC (1 / (MU_0 * L0)) = (RtoC 1 / RtoC (MU_0 * L0))%C) by (apply RtoC_div; lra).
  rewrite solves_grid. unfold sep_eq, drive. rewrite (RtoC_mult omega (MU_0 * L0)). split; intros H.
  - intros j i Hj Hi; specialize (H i j Hi Hj). rewrite G, HB, V in H by assumption. set (Z := (csum Ny _ + csum Nx _)%C) in *. replace Z with (RtoC (MU_0 * L0) * (RtoC 1 / RtoC (MU_0 * L0) * Z))%C by (field; exact KN). rewrite H. destruct (Nat.eqb j c); ring.
  - intros i j Hi Hj; specialize (H j i Hj Hi). rewrite G, HB, V by assumption. rewrite H. destruct (Nat.eqb j c); field; exact KN.
Qed.

Lemma new_derivs omega eps dl px py p L0 s : Simulation omega eps dl (Some [px; py]) p L0 = Ok s ->
  s_derivs s = make_derivs omega L0 (nd_nx eps) (nd_ny eps) (Z.to_nat px, Z.to_nat py) (0, INR (nd_nx eps) * dl)%R (0, INR (nd_ny eps) * dl)%R /\ s_Nx s = nd_nx eps /\ s_Ny s = nd_ny eps.
Proof.
  unfold Simulation, check_inputs. destruct (Rlt_dec 0 L0); [|discriminate]. destruct (Rlt_dec 0 omega); [|discriminate]. cbn [andb].
  destruct (Z.leb 0 px && Z.leb 0 py)%bool; [|discriminate]. destruct (_ || _)%bool; [|discriminate]. intro Q. injection Q as <-. repeat split; destruct (String.eqb p "Ez"); reflexivity.
Qed.
Lemma dl_back (N : nat) (dl : R) : 0 < N -> ((INR N * dl - 0) / INR N = dl)%R.
Proof. intro H. field. apply not_0_INR. lia. Qed.
(** the product of a profile across the guide and an amplitude along it, as a field *)
Lemma along_x_derivative omega eps dl px L0 s X g (u : nat -> C) : Simulation omega eps dl (Some [px; 0]%Z) "Ez" L0 = Ok s -> (0 < dl)%R -> 
  (forall i j, i < nd_nx eps -> j < nd_ny eps -> X (pix (nd_ny eps) i j) = (g i * u j)%C) ->
  exists h, forall i j, i < nd_nx eps -> j < nd_ny eps -> mv (nd_nx eps * nd_ny eps) (Dxb (s_derivs s)) X (pix (nd_ny eps) i j) = (h i * u j)%C.
Proof.
  intros HS Hd HX. destruct (new_derivs _ _ _ _ _ _ _ _ HS) as (-> & _). set (Nx := nd_nx eps) in *. set (Ny := nd_ny eps) in *. cbn [make_derivs Dxb].
  exists (fun i => pax Bwd omega L0 (0, INR Nx * dl)%R dl Nx (Z.to_nat px) g i). intros i j Hi Hj.
  assert (D1 : fst (dL Nx Ny (0, INR Nx * dl)%R (0, INR Ny * dl)%R) = dl) by (apply dl_back; lia).
  assert (D2 : snd (dL Nx Ny (0, INR Nx * dl)%R (0, INR Ny * dl)%R) = dl) by (apply dl_back; lia).
  rewrite DDx_grid by (rewrite ?D1, ?D2; assumption || lra). rewrite D1. cbn [fst].
  rewrite (pax_ext _ _ _ _ _ _ _ _ (fun c => (u j * g c)%C)) by (try assumption; intros; rewrite HX by assumption; ring). rewrite pax_scal by lra. ring.
Qed.
Lemma along_y_derivative omega eps dl py L0 s X g (u : nat -> C) : Simulation omega eps dl (Some [0; py]%Z) "Ez" L0 = Ok s -> (0 < dl)%R -> 
  (forall i j, i < nd_nx eps -> j < nd_ny eps -> X (pix (nd_ny eps) i j) = (g j * u i)%C) ->
  exists h, forall i j, i < nd_nx eps -> j < nd_ny eps -> mv (nd_nx eps * nd_ny eps) (Dyb (s_derivs s)) X (pix (nd_ny eps) i j) = (h j * u i)%C.
Proof.
  intros HS Hd HX. destruct (new_derivs _ _ _ _ _ _ _ _ HS) as (-> & _). set (Nx := nd_nx eps) in *. set (Ny := nd_ny eps) in *. cbn [make_derivs Dyb].
  exists (fun j => pax Bwd omega L0 (0, INR Ny * dl)%R dl Ny (Z.to_nat py) g j). intros i j Hi Hj.
  assert (D1 : fst (dL Nx Ny (0, INR Nx * dl)%R (0, INR Ny * dl)%R) = dl) by (apply dl_back; lia).
  assert (D2 : snd (dL Nx Ny (0, INR Nx * dl)%R (0, INR Ny * dl)%R) = dl) by (apply dl_back; lia).
  rewrite DDy_grid by (rewrite ?D1, ?D2; assumption || lra). rewrite D2. cbn [snd].
  rewrite (pax_ext _ _ _ _ _ _ _ _ (fun c => (u i * g c)%C)) by (try assumption; intros; rewrite HX by assumption; ring). rewrite pax_scal by lra. ring.
Qed.

Lemma real_multiple_eig N t lam v z (r : nat -> R) q : eig N t lam v -> (forall k, k < N -> v k = (z * RtoC (r k))%C) -> z <> RtoC 0 ->
  eig N t lam (fun k => RtoC (q * r k)).
Proof.
  intros HE HV Hz j Hj. assert (K := HE j Hj). rewrite (csum_ext N _ (fun j' => (z * (t j j' * RtoC (r j')))%C)) in K by (intros; rewrite HV by assumption; ring).
  rewrite csum_scal, (HV j Hj) in K. rewrite (csum_ext N _ (fun j' => (RtoC q * (t j j' * RtoC (r j')))%C)) by (intros; rewrite RtoC_mult; ring). rewrite csum_scal, RtoC_mult.
  apply (Cmult_cancel_l z); [exact Hz|]. rewrite Cmult_assoc, (Cmult_comm z), <- Cmult_assoc, K. ring.
Qed.
Lemma eigs_profile e lam sc N A o r v : eigs_correct e lam -> e_eigs e N A o r = Ok v -> one_phase N v ->
  exists u : nat -> R, (forall k, k < N -> mode_profile sc v k = RtoC (u k)) /\ eig N A (lam N A o r) (fun k => RtoC (u k)).
Proof.
  intros HE HV (z & rr & HP). destruct (HE _ _ _ _ _ HV) as (HQ & HN).
  assert (Hz : z <> RtoC 0). { intros ->. assert (Q : rsum N (fun k => Cmod (v k) ^ 2)%R = 0%R); [|lra]. clear - HP. assert (S : forall n, n <= N -> rsum n (fun k => Cmod (v k) ^ 2)%R = 0%R); [|apply S; lia].
    induction n; intro L; cbn [rsum]; [reflexivity|]. rewrite IHn, (HP n) by lia. rewrite Cmult_0_l, Cmod_0. ring. }
  destruct (profile_multiple sc N v z rr HP) as (q & HM). exists (fun k => (q * rr k)%R). split; [exact HM|].
  eapply real_multiple_eig; [|exact HP|exact Hz]. intros j Hj. apply (HQ j Hj).
Qed.
Lemma separate_real Nx Ny a t beta (u : vec) (ur : nat -> R) lam E :
  (forall j, j < Ny -> u j = RtoC (ur j)) -> (forall j j', j < Ny -> j' < Ny -> t j j' = t j' j) -> eig Ny t lam (fun j => RtoC (ur j)) -> sep_eq Nx Ny a t beta u E ->
  (forall E', sep_eq Nx Ny a t beta u E' -> forall i j, i < Nx -> j < Ny -> E' i j = E i j) ->
  exists g, (forall i j, i < Nx -> j < Ny -> E i j = (g i * u j)%C) /\ ((exists j, j < Ny /\ ur j <> 0%R) -> forall i, i < Nx -> (csum Nx (fun i' => a i i' * g i') + lam * g i = beta i)%C).
Proof.
  intros HU HT HE HQ HO. assert (HE' : eig Ny t lam u). { intros j Hj. rewrite (HU j Hj), <- (HE j Hj). apply csum_ext. intros k Hk. rewrite (HU k Hk). reflexivity. }
  destruct (classic (exists j, j < Ny /\ ur j <> 0%R)) as [HN|HN].
  - destruct (separate Nx Ny a t beta u ur lam E HU HN HT HE' HQ HO) as (g & A & B). exists g. auto.
  - assert (Z : forall j, j < Ny -> u j = RtoC 0). { intros j Hj. rewrite (HU j Hj). f_equal. apply NNPP. intro K. apply HN. eauto. }
    exists (fun _ => RtoC 0). split; [|intro K; contradiction]. intros i j Hi Hj. rewrite Cmult_0_l. symmetry. apply (HO (fun _ _ => RtoC 0)); [|assumption|assumption].
    intros i' j' _ Hj'. rewrite !csum_0 by (intros; ring). rewrite (Z j' Hj'). ring.
Qed.
(** a grid function as a field *)
Lemma uniq_grid n m A b X E : nonsingular (n * m) A -> solves (n * m) A X b -> solves (n * m) A (fun k => E (k / m) (k mod m)) b ->
  forall i j, i < n -> j < m -> E i j = X (pix m i j).
Proof.
  intros HA H1 H2 i j Hi Hj. assert (K := solves_unique _ _ _ _ _ HA H2 H1 (pix m i j)). cbv beta in K. destruct (pix_i m i j Hj) as [-> ->] in K.
  apply K. apply flat_lt; assumption.
Qed.

Lemma eig_guided s (L : nd R) N (n2 : nat -> R) lm u : s_pol s = PolEz -> (0 < s_dl s)%R -> 2 <= N -> nd_size L = N -> (forall j, j < N -> nd_buf L j = n2 j) ->
  eig N (mode_matrix s L) lm u <-> guided (s_omega s) (s_dl s) (s_L0 s) N n2 lm u.
Proof.
  intros SP SD HN LS LB. assert (F : forall j, j < N -> csum N (fun c => mode_matrix s L j c * u c)%C = (second_diff (s_dl s) N u j + RtoC (s_omega s ^ 2 * (MU_0 * s_L0 s) * (EPSILON_0 * s_L0 s) * n2 j) * u j)%C).
  { intros j Hj. assert (K := mode_form s L u j SP). rewrite LS in K. rewrite K by (assumption || lra). rewrite (LB j Hj), Cplus_comm. do 3 f_equal. ring. }
  split; intros H j Hj; specialize (H j Hj); [rewrite <- F by exact Hj; exact H|rewrite F by exact Hj; exact H].
Qed.

(** ** C117 *)
Theorem C117_travels_alone_x : forall e lam omega eps dl px L0 s m c src av s2 Hx Hy Ez,
  solver_exact e -> eigs_correct e lam -> (forall A o r v, e_eigs e (nd_ny eps) A o r = Ok v -> (exists b2, guided omega dl L0 (nd_ny eps) (nd_at eps c) b2 v) -> one_phase (nd_ny eps) v) ->
  Simulation omega eps dl (Some [px; 0]%Z) "Ez" L0 = Ok s -> (0 < dl)%R -> 2 <= nd_nx eps -> 2 <= nd_ny eps -> straight_along_x eps ->
  fills_column m (nd_nx eps) (nd_ny eps) c -> one_field s ->
  insert_mode e m s (s_src s) = Ok src -> solve_fields e false av (upd_src src s) = (s2, Ok (Hx, Hy, Ez)) ->
  exists (u : nat -> R) beta2 g h,
    (forall i j, i < nd_nx eps -> j < nd_ny eps -> nd_at src i j = if Nat.eqb i c then RtoC (u j) else RtoC 0) /\
    guided omega dl L0 (nd_ny eps) (nd_at eps c) beta2 (fun j => RtoC (u j)) /\
    (forall i j, i < nd_nx eps -> j < nd_ny eps -> Ez (pix (nd_ny eps) i j) = (g i * RtoC (u j))%C /\ Hy (pix (nd_ny eps) i j) = (h i * RtoC (u j))%C) /\
    ((exists j, j < nd_ny eps /\ u j <> 0%R) -> forall i, i < nd_nx eps -> outside_layers (nd_nx eps) (Z.to_nat px) i ->
       (second_diff dl (nd_nx eps) g i + beta2 * g i = if Nat.eqb i c then Ci * RtoC (omega * (MU_0 * L0)) else RtoC 0)%C).
Proof.
  intros e lam omega eps dl px L0 s m c src av s2 Hx Hy Ez He HE HP HS Hd HNx HNy HST HF H1 HM HV.
  destruct (fresh_slots _ _ _ _ _ _ _ HS) as (SX & SY & S0 & SE & SNx & SNy & SO & SL & SD & _). destruct (Ez_slots _ _ _ _ _ _ HS) as (SP & _).
  destruct (column_source e m s (s_src s) src c HM) as (L & v & LS & LB & LE & D1 & D2 & SRC); rewrite ?SE; try assumption.
  rewrite SE in *. set (Nx := nd_nx eps) in *. set (Ny := nd_ny eps) in *.
  set (s1 := upd_src src s) in *.
  assert (EG := fun lm w => eig_guided s L Ny (nd_at eps c) lm w SP ltac:(rewrite SD; exact Hd) HNy LS LB). rewrite SD, SO, SL in EG.
  assert (VG : exists b2, guided omega dl L0 Ny (nd_at eps c) b2 v) by (eexists; apply EG; exact (proj1 (HE _ _ _ _ _ LE))).
  destruct (eigs_profile _ lam (md_scale m) _ _ _ _ _ HE LE (HP _ _ _ _ LE VG)) as (u & PU & EU). set (lm := lam _ _ _ _) in EU.
  assert (C0 := proj1 (proj2 HF)).
  assert (NS : nonsingular (Nx * Ny) (s_A s)). { apply one_field_iff in H1. unfold s_M in H1. rewrite SNx, SNy in H1. exact H1. }
  assert (A1 : s_A s1 = s_A s) by reflexivity. assert (M1 : s_M s1 = Nx * Ny) by (unfold s1, s_M; cbn [upd_src s_Nx s_Ny]; rewrite SNx, SNy; reflexivity).
  assert (SV := solve_fields_solves e false av s1 s2 Hx Hy Ez He). rewrite M1 in SV. unfold used_matrix in SV. rewrite A1 in SV. specialize (SV NS HV).
  assert (RH : forall i j, i < Nx -> j < Ny -> rhs s1 (pix Ny i j) = ((if Nat.eqb i c then mode_profile (md_scale m) v j else RtoC 0) * Ci * RtoC omega)%C).
  { intros i j Hi Hj. unfold rhs. assert (O1 : s_omega s1 = omega) by exact SO. rewrite O1. do 2 f_equal.
    assert (Q := SRC i j Hi Hj). unfold nd_at in Q at 1. rewrite D2 in Q. unfold pix. cbn [s1 upd_src s_src]. rewrite Q. destruct (Nat.eqb i c); [reflexivity|]. unfold nd_at. apply S0. }
  assert (SEP := fun X => column_sep omega eps dl px L0 s L c _ (rhs s1) X HS Hd HNy LS HST C0 LB RH).
  destruct (separate_real Nx Ny _ _ _ _ u lm _ PU (fun j j' _ _ => mode_sym s L j j' SP) EU (proj1 (SEP Ez) SV)) as (g & GF & GE).
  { intros E' HE' i j Hi Hj. apply (uniq_grid Nx Ny (s_A s) (rhs s1) Ez E' NS SV); [|exact Hi|exact Hj]. apply SEP. intros i' j' Hi' Hj'.
    fold Ny. rewrite (csum_ext (nd_nx eps) _ (fun k => (along omega L0 (0, INR (nd_nx eps) * dl)%R dl (nd_nx eps) (Z.to_nat px) i' k * E' k j')%C)) by (intros k Hk; destruct (pix_i Ny k j' Hj') as [-> ->]; reflexivity).
    rewrite (csum_ext Ny _ (fun k => (mode_matrix s L j' k * E' i' k)%C)) by (intros k Hk; destruct (pix_i Ny i' k Hk) as [-> ->]; reflexivity). apply HE'; assumption. }
  assert (GU : forall i j, i < Nx -> j < Ny -> Ez (pix Ny i j) = (g i * RtoC (u j))%C) by (intros i j Hi Hj; rewrite <- (PU j Hj); apply GF; assumption).
  destruct (along_x_derivative omega eps dl px L0 s Ez g (fun j => RtoC (u j)) HS Hd GU) as (h & HH).
  exists u, lm, g, (fun i => RtoC 1 / Ci / RtoC omega / RtoC (MU_0 * L0) * h i)%C. split; [|split; [|split]].
  - intros i j Hi Hj. rewrite (SRC i j Hi Hj). destruct (Nat.eqb i c); [apply PU; exact Hj|]. unfold nd_at. apply S0.
  - apply EG. exact EU.
  - intros i j Hi Hj. split; [apply GU; assumption|]. destruct (solve_fields_ok _ _ _ _ _ _ _ _ HV) as (_ & _ & DF & _). unfold derived_fields in DF. assert (P1 : s_pol s1 = PolEz) by exact SP. rewrite P1 in DF. injection DF as _ ->.
    assert (DD : s_derivs s1 = s_derivs s) by reflexivity. assert (O1 : s_omega s1 = omega) by exact SO. assert (L1 : s_L0 s1 = L0) by exact SL.
    unfold vscal. rewrite M1. cbn [s1 upd_src s_derivs s_omega s_L0]. rewrite SO, SL. fold Nx Ny in HH. rewrite HH by assumption. ring.
  - intros NZ i Hi HO. assert (K := GE NZ i Hi). rewrite along_free in K by (assumption || lra). exact K.
Qed.
Theorem C117_travels_alone_y : forall e lam omega eps dl py L0 s m c src av s2 Hx Hy Ez,
  solver_exact e -> eigs_correct e lam -> (forall A o r v, e_eigs e (nd_nx eps) A o r = Ok v -> (exists b2, guided omega dl L0 (nd_nx eps) (fun i => nd_at eps i c) b2 v) -> one_phase (nd_nx eps) v) ->
  Simulation omega eps dl (Some [0; py]%Z) "Ez" L0 = Ok s -> (0 < dl)%R -> 2 <= nd_nx eps -> 2 <= nd_ny eps -> straight_along_y eps ->
  fills_row m (nd_nx eps) (nd_ny eps) c -> one_field s ->
  insert_mode e m s (s_src s) = Ok src -> solve_fields e false av (upd_src src s) = (s2, Ok (Hx, Hy, Ez)) ->
  exists (u : nat -> R) beta2 g h,
    (forall i j, i < nd_nx eps -> j < nd_ny eps -> nd_at src i j = if Nat.eqb j c then RtoC (u i) else RtoC 0) /\
    guided omega dl L0 (nd_nx eps) (fun i => nd_at eps i c) beta2 (fun i => RtoC (u i)) /\
    (forall i j, i < nd_nx eps -> j < nd_ny eps -> Ez (pix (nd_ny eps) i j) = (g j * RtoC (u i))%C /\ Hx (pix (nd_ny eps) i j) = (h j * RtoC (u i))%C) /\
    ((exists i, i < nd_nx eps /\ u i <> 0%R) -> forall j, j < nd_ny eps -> outside_layers (nd_ny eps) (Z.to_nat py) j ->
       (second_diff dl (nd_ny eps) g j + beta2 * g j = if Nat.eqb j c then Ci * RtoC (omega * (MU_0 * L0)) else RtoC 0)%C).
Proof.
  intros e lam omega eps dl py L0 s m c src av s2 Hx Hy Ez He HE HP HS Hd HNx HNy HST HF H1 HM HV.
  destruct (fresh_slots _ _ _ _ _ _ _ HS) as (SX & SY & S0 & SE & SNx & SNy & SO & SL & SD & _). destruct (Ez_slots _ _ _ _ _ _ HS) as (SP & _).
  destruct (row_source e m s (s_src s) src c HM) as (L & v & LS & LB & LE & D1 & D2 & SRC); rewrite ?SE; try assumption.
  rewrite SE in *. set (Nx := nd_nx eps) in *. set (Ny := nd_ny eps) in *.
  set (s1 := upd_src src s) in *.
  assert (EG := fun lm w => eig_guided s L Nx (fun i => nd_at eps i c) lm w SP ltac:(rewrite SD; exact Hd) HNx LS LB). rewrite SD, SO, SL in EG.
  assert (VG : exists b2, guided omega dl L0 Nx (fun i => nd_at eps i c) b2 v) by (eexists; apply EG; exact (proj1 (HE _ _ _ _ _ LE))).
  destruct (eigs_profile _ lam (md_scale m) _ _ _ _ _ HE LE (HP _ _ _ _ LE VG)) as (u & PU & EU). set (lm := lam _ _ _ _) in EU.
  assert (C0 := proj1 (proj2 HF)).
  assert (NS : nonsingular (Nx * Ny) (s_A s)). { apply one_field_iff in H1. unfold s_M in H1. rewrite SNx, SNy in H1. exact H1. }
  assert (A1 : s_A s1 = s_A s) by reflexivity. assert (M1 : s_M s1 = Nx * Ny) by (unfold s1, s_M; cbn [upd_src s_Nx s_Ny]; rewrite SNx, SNy; reflexivity).
  assert (SV := solve_fields_solves e false av s1 s2 Hx Hy Ez He). rewrite M1 in SV. unfold used_matrix in SV. rewrite A1 in SV. specialize (SV NS HV).
  assert (RH : forall i j, i < Nx -> j < Ny -> rhs s1 (pix Ny i j) = ((if Nat.eqb j c then mode_profile (md_scale m) v i else RtoC 0) * Ci * RtoC omega)%C).
  { intros i j Hi Hj. unfold rhs. assert (O1 : s_omega s1 = omega) by exact SO. rewrite O1. do 2 f_equal.
    assert (Q := SRC i j Hi Hj). unfold nd_at in Q at 1. rewrite D2 in Q. unfold pix. cbn [s1 upd_src s_src]. rewrite Q. destruct (Nat.eqb j c); [reflexivity|]. unfold nd_at. apply S0. }
  assert (SEP := fun X => row_sep omega eps dl py L0 s L c _ (rhs s1) X HS Hd HNx LS HST C0 LB RH).
  destruct (separate_real Ny Nx _ _ _ _ u lm _ PU (fun j j' _ _ => mode_sym s L j j' SP) EU (proj1 (SEP Ez) SV)) as (g & GF & GE).
  { intros E' HE' j i Hj Hi. apply (uniq_grid Nx Ny (s_A s) (rhs s1) Ez (fun i j => E' j i) NS SV); [|exact Hi|exact Hj]. apply SEP. intros j' i' Hj' Hi'.
    fold Ny. rewrite (csum_ext (nd_nx eps) _ (fun k => (mode_matrix s L i' k * E' j' k)%C)) by (intros k Hk; destruct (pix_i Ny k j' Hj') as [-> ->]; reflexivity).
    rewrite (csum_ext Ny _ (fun k => (along omega L0 (0, INR Ny * dl)%R dl Ny (Z.to_nat py) j' k * E' k i')%C)) by (intros k Hk; destruct (pix_i Ny i' k Hk) as [-> ->]; reflexivity). apply HE'; assumption. }
  assert (GU : forall i j, i < Nx -> j < Ny -> Ez (pix Ny i j) = (g j * RtoC (u i))%C) by (intros i j Hi Hj; rewrite <- (PU i Hi); apply (GF j i); assumption).
  destruct (along_y_derivative omega eps dl py L0 s Ez g (fun j => RtoC (u j)) HS Hd GU) as (h & HH).
  exists u, lm, g, (fun i => - RtoC 1 / Ci / RtoC omega / RtoC (MU_0 * L0) * h i)%C. split; [|split; [|split]].
  - intros i j Hi Hj. rewrite (SRC i j Hi Hj). destruct (Nat.eqb j c); [apply PU; exact Hi|]. unfold nd_at. apply S0.
  - apply EG. exact EU.
  - intros i j Hi Hj. split; [apply GU; assumption|]. destruct (solve_fields_ok _ _ _ _ _ _ _ _ HV) as (_ & _ & DF & _). unfold derived_fields in DF. assert (P1 : s_pol s1 = PolEz) by exact SP. rewrite P1 in DF. injection DF as -> _.
    assert (DD : s_derivs s1 = s_derivs s) by reflexivity. assert (O1 : s_omega s1 = omega) by exact SO. assert (L1 : s_L0 s1 = L0) by exact SL.
    unfold vscal. rewrite M1. cbn [s1 upd_src s_derivs s_omega s_L0]. rewrite SO, SL. fold Nx Ny in HH. rewrite HH by assumption. ring.
  - intros NZ j Hj HO. assert (K := GE NZ j Hj). rewrite along_free in K by (assumption || lra). exact K.
Qed.

(** ** Modes that are determined by their propagation constant *)
(** the profiles of one propagation constant are multiples of one of them *)
Definition simple_mode (omega dl L0 : R) (N : nat) (n2 : nat -> R) (beta2 : C) : Prop :=
  forall u v, guided omega dl L0 N n2 beta2 u -> guided omega dl L0 N n2 beta2 v -> (exists j, j < N /\ u j <> RtoC 0) -> exists z, forall j, j < N -> v j = (z * u j)%C.

Lemma shift_sum N f : csum N (fun i => f (prev N i)) = csum N f.
Proof. destruct N; [reflexivity|]. rewrite csum_S_first. cbn [prev]. replace (S N - 1)%nat with N by lia. simpl. rewrite Cplus_comm. reflexivity. Qed.
Lemma second_diff_sym dl N x y : 2 <= N -> csum N (fun j => x j * second_diff dl N y j)%C = csum N (fun j => y j * second_diff dl N x j)%C.
Proof.
  intro HN. assert (S : forall a b, csum N (fun j => a j * b (next N j))%C = csum N (fun j => a (prev N j) * b j)%C).
  { intros a b. rewrite <- shift_sum. apply csum_ext. intros j Hj. rewrite next_prev by (assumption || lia). reflexivity. }
  assert (F : forall a b, csum N (fun j => a j * second_diff dl N b j)%C = (/ RtoC (dl ^ 2) * (csum N (fun j => a j * b (next N j)) + csum N (fun j => a j * b (prev N j)) + (- RtoC 2) * csum N (fun j => a j * b j)))%C).
  { intros a b. rewrite <- (csum_scal N (- RtoC 2)%C), <- !csum_plus, <- csum_scal. apply csum_ext. intros j Hj. unfold second_diff, Cdiv. ring. }
  rewrite !F, !S. f_equal. rewrite (csum_ext N (fun j => x j * y (prev N j))%C (fun j => y (prev N j) * x j)%C) by (intros; ring). rewrite (csum_ext N (fun j => y j * x (prev N j))%C (fun j => x (prev N j) * y j)%C) by (intros; ring).
  rewrite (csum_ext N (fun j => y j * x j)%C (fun j => x j * y j)%C) by (intros; ring). ring.
Qed.
Lemma second_diff_lin dl N a b u v j : second_diff dl N (fun k => a * u k + b * v k)%C j = (a * second_diff dl N u j + b * second_diff dl N v j)%C.
Proof. unfold second_diff, Cdiv. ring. Qed.
Lemma guided_lin omega dl L0 N n2 b2 a b u v : guided omega dl L0 N n2 b2 u -> guided omega dl L0 N n2 b2 v -> guided omega dl L0 N n2 b2 (fun k => a * u k + b * v k)%C.
Proof.
  intros HU HV j Hj. rewrite second_diff_lin. assert (A := HU j Hj). assert (B := HV j Hj). set (P := second_diff dl N u j) in *. set (Q := second_diff dl N v j) in *. set (k := RtoC _) in *.
  replace (a * P + b * Q + k * (a * u j + b * v j))%C with (a * (P + k * u j) + b * (Q + k * v j))%C by ring. rewrite A, B. ring.
Qed.
Lemma second_diff_conj dl N u j : dl <> 0%R -> second_diff dl N (fun k => Cconj (u k)) j = Cconj (second_diff dl N u j).
Proof.
  intro Hd. unfold second_diff. assert (D : RtoC (dl ^ 2) = (RtoC (/ dl ^ 2) * RtoC (dl ^ 2) * RtoC (dl ^ 2))%C). { rewrite <- !RtoC_mult. f_equal. field. exact Hd. }
  unfold Cdiv. rewrite <- RtoC_inv by (apply pow_nonzero; exact Hd). apply C_ext; autorewrite with reim; simpl; ring.
Qed.
Lemma guided_conj omega dl L0 N n2 b2 u : dl <> 0%R -> guided omega dl L0 N n2 b2 u -> guided omega dl L0 N n2 (Cconj b2) (fun k => Cconj (u k)).
Proof.
  intros Hd HU j Hj. rewrite second_diff_conj by exact Hd. assert (A := f_equal Cconj (HU j Hj)). rewrite Cconj_plus, !Cconj_mult in A. rewrite <- A. f_equal. f_equal. apply C_ext; simpl; ring.
Qed.
(** the square of the propagation constant is real *)
Lemma beta2_real omega dl L0 N n2 b2 u : dl <> 0%R -> 2 <= N -> guided omega dl L0 N n2 b2 u -> (exists j, j < N /\ u j <> RtoC 0) -> Cconj b2 = b2.
Proof.
  intros Hd HN HG (j0 & Hj0 & N0). assert (HC := guided_conj _ _ _ _ _ _ _ Hd HG). set (w := fun k => Cconj (u k)) in *.
  assert (E : (b2 * csum N (fun j => w j * u j) = Cconj b2 * csum N (fun j => w j * u j))%C).
  { rewrite <- !csum_scal. rewrite (csum_ext N _ (fun j => (w j * second_diff dl N u j + RtoC (omega ^ 2 * (MU_0 * L0) * (EPSILON_0 * L0) * n2 j) * (w j * u j))%C)).
    2:{ intros j Hj. replace (b2 * (w j * u j))%C with (w j * (b2 * u j))%C by ring. rewrite <- (HG j Hj). ring. }
    rewrite (csum_ext N (fun j => Cconj b2 * (w j * u j))%C (fun j => (u j * second_diff dl N w j + RtoC (omega ^ 2 * (MU_0 * L0) * (EPSILON_0 * L0) * n2 j) * (w j * u j))%C)).
    2:{ intros j Hj. replace (Cconj b2 * (w j * u j))%C with (u j * (Cconj b2 * w j))%C by ring. rewrite <- (HC j Hj). ring. }
    rewrite !csum_plus. f_equal. apply second_diff_sym. exact HN. }
  assert (S : (csum N (fun j => w j * u j))%C = RtoC (rsum N (fun j => Cmod (u j) ^ 2)%R)).
  { clear. induction N; cbn [csum rsum]; [reflexivity|]. rewrite IHN, RtoC_plus. f_equal. unfold w. unfold Cmod. rewrite <- Rsqr_pow2, Rsqr_sqrt by nra. apply C_ext; simpl; ring. }
  assert (P := rsum_sq_pos N (fun j => Cmod (u j)) j0 Hj0 ltac:(intro K; apply N0; apply Cmod_eq_0; exact K)).
  rewrite S in E. symmetry. apply (Cmult_cancel_l (RtoC (rsum N (fun j => Cmod (u j) ^ 2)%R))); [apply RtoC_neq0; lra|]. rewrite Cmult_comm, E. ring.
Qed.
Theorem C117_simple_mode_one_phase : forall omega dl L0 N n2 b2 v, (0 < dl)%R -> 2 <= N -> simple_mode omega dl L0 N n2 b2 -> guided omega dl L0 N n2 b2 v -> one_phase N v.
Proof.
  intros omega dl L0 N n2 b2 v Hd HN HS HV. destruct (classic (exists j, j < N /\ v j <> RtoC 0)) as [NZ|Z].
  2:{ exists (RtoC 0), (fun _ => 0%R). intros k Hk. rewrite Cmult_0_l. apply NNPP. intro K. apply Z. eauto. }
  assert (R := beta2_real _ _ _ _ _ _ _ (Rgt_not_eq _ _ Hd) HN HV NZ). assert (HC := guided_conj _ _ _ _ _ _ _ (Rgt_not_eq _ _ Hd) HV). rewrite R in HC.
  assert (HR := guided_lin _ _ _ _ _ _ (RtoC (/ 2)) (RtoC (/ 2)) _ _ HV HC). cbv beta in HR.
  assert (EQ : forall k, (RtoC (/ 2) * v k + RtoC (/ 2) * Cconj (v k) = RtoC (Re (v k)))%C) by (intro k; destruct (v k) as [x y]; apply C_ext; simpl; field).
  destruct (classic (exists j, j < N /\ Re (v j) <> 0%R)) as [(j0 & Hj0 & NR)|ZR].
  - destruct (HS _ _ HR HV) as (z & Hz).
    { exists j0. split; [exact Hj0|]. rewrite EQ. apply RtoC_neq0. exact NR. }
    exists z, (fun k => Re (v k)). intros k Hk. rewrite (Hz k Hk) at 1. rewrite EQ. reflexivity.
  - exists Ci, (fun k => Im (v k)). intros k Hk. assert (Re (v k) = 0%R) by (apply NNPP; intro K; apply ZR; eauto). destruct (v k) as [x y]. cbn in *. subst x. apply C_ext; simpl; ring.
Qed.
(** a profile without zeros or changes of sign belongs to a simple mode *)
Lemma argmin N (f : nat -> R) : 0 < N -> exists k, k < N /\ forall j, j < N -> (f k <= f j)%R.
Proof.
  induction N; [lia|]. intros _. destruct N; [exists 0; split; [lia|]; intros j Hj; replace j with 0 by lia; lra|].
  destruct IHN as (k & Hk & HM); [lia|]. destruct (Rle_dec (f k) (f (S N))) as [L|L].
  - exists k. split; [lia|]. intros j Hj. destruct (Nat.eq_dec j (S N)) as [->|]; [exact L|apply HM; lia].
  - exists (S N). split; [lia|]. intros j Hj. destruct (Nat.eq_dec j (S N)) as [->|]; [lra|]. assert (Q := HM j ltac:(lia)). lra.
Qed.
Definition real_guided (dl : R) (N : nat) (V : nat -> R) (b : R) (u : nat -> R) : Prop :=
  forall j, j < N -> (u (next N j) - 2 * u j + u (prev N j) + dl ^ 2 * V j * u j = dl ^ 2 * b * u j)%R.
Lemma next_walk N (P : nat -> Prop) j0 : j0 < N -> P j0 -> (forall j, j < N -> P j -> P (next N j)) -> forall j, j < N -> P j.
Proof.
  intros Hj0 H0 HS. assert (U : forall k, j0 <= k -> k < N -> P k).
  { induction k; intros A B; [replace 0 with j0 by lia; exact H0|]. destruct (Nat.eq_dec j0 (S k)) as [<-|]; [exact H0|]. assert (Q := HS k ltac:(lia) (IHk ltac:(lia) ltac:(lia))). unfold next in Q. destruct (Nat.eqb_spec (S k) N); [lia|exact Q]. }
  assert (Z : P 0). { assert (Q := HS (N - 1) ltac:(lia) (U (N - 1) ltac:(lia) ltac:(lia))). unfold next in Q. destruct (Nat.eqb_spec (S (N - 1)) N); [exact Q|lia]. }
  intros j. induction j; intro Hj; [exact Z|]. assert (Q := HS j ltac:(lia) (IHj ltac:(lia))). unfold next in Q. destruct (Nat.eqb_spec (S j) N); [lia|exact Q].
Qed.
Lemma positive_simple_real dl N V b u v : (0 < dl)%R -> 2 <= N -> (forall j, j < N -> (0 < u j)%R) -> real_guided dl N V b u -> real_guided dl N V b v ->
  exists t, forall j, j < N -> v j = (t * u j)%R.
Proof.
  intros Hd HN HP HU HV. destruct (argmin N (fun j => v j / u j)%R ltac:(lia)) as (k & Hk & HM). set (t := (v k / u k)%R) in *. exists t.
  set (w := fun j => (v j - t * u j)%R).
  assert (W0 : forall j, j < N -> (0 <= w j)%R).
  { intros j Hj. unfold w. assert (Q := HM j Hj). cbv beta in Q. assert (P := HP j Hj). assert (v j = (v j / u j) * u j)%R as -> by (field; lra). assert ((t * u j <= v j / u j * u j)%R) by (apply Rmult_le_compat_r; lra). lra. }
  assert (HW : real_guided dl N V b w).
  { intros j Hj. unfold w. assert (A := HU j Hj). assert (B := HV j Hj).
    replace (v (next N j) - t * u (next N j) - 2 * (v j - t * u j) + (v (prev N j) - t * u (prev N j)) + dl ^ 2 * V j * (v j - t * u j))%R
      with ((v (next N j) - 2 * v j + v (prev N j) + dl ^ 2 * V j * v j) - t * (u (next N j) - 2 * u j + u (prev N j) + dl ^ 2 * V j * u j))%R by ring. rewrite A, B. ring. }
  assert (Z : forall j, j < N -> w j = 0%R).
  { apply (next_walk N (fun j => w j = 0%R) k Hk).
    - unfold w, t. assert (P := HP k Hk). field. lra.
    - intros j Hj E. assert (Q := HW j Hj). rewrite E in Q. assert (A := W0 _ (next_lt N j Hj)). assert (B := W0 _ (prev_lt N j Hj)). lra. }
  intros j Hj. assert (Q := Z j Hj). unfold w in Q. lra.
Qed.
Lemma guided_real omega dl L0 N n2 b (u : nat -> C) : (0 < dl)%R -> guided omega dl L0 N n2 (RtoC b) u ->
  real_guided dl N (fun j => omega ^ 2 * (MU_0 * L0) * (EPSILON_0 * L0) * n2 j)%R b (fun j => Re (u j)) /\ real_guided dl N (fun j => omega ^ 2 * (MU_0 * L0) * (EPSILON_0 * L0) * n2 j)%R b (fun j => Im (u j)).
Proof.
  intros Hd HG. assert (D : (dl ^ 2 <> 0)%R) by (apply pow_nonzero; lra).
  assert (F : forall j, j < N -> (u (next N j) - RtoC 2 * u j + u (prev N j) = RtoC (dl ^ 2) * (RtoC b - RtoC (omega ^ 2 * (MU_0 * L0) * (EPSILON_0 * L0) * n2 j)) * u j)%C).
  { intros j Hj. assert (K := HG j Hj). unfold second_diff in K. set (X := (u (next N j) - RtoC 2 * u j + u (prev N j))%C) in *. set (V := RtoC (omega ^ 2 * _ * _ * _)) in *.
    assert (X / RtoC (dl ^ 2) = (RtoC b - V) * u j)%C as Q. { replace ((RtoC b - V) * u j)%C with (RtoC b * u j - V * u j)%C by ring. rewrite <- K. ring. }
    replace X with (RtoC (dl ^ 2) * (X / RtoC (dl ^ 2)))%C by (field; apply RtoC_neq0; exact D). rewrite Q. ring. }
  split; intros j Hj; assert (K := F j Hj); [apply (f_equal Re) in K|apply (f_equal Im) in K]; destruct (u (next N j)) as [a1 b1], (u j) as [a2 b2], (u (prev N j)) as [a3 b3]; cbn in *; nra || lra.
Qed.
Theorem C117_positive_mode_simple : forall omega dl L0 N n2 b2 (u : nat -> R), (0 < dl)%R -> 2 <= N -> (forall j, j < N -> (0 < u j)%R) ->
  guided omega dl L0 N n2 b2 (fun j => RtoC (u j)) -> simple_mode omega dl L0 N n2 b2.
Proof.
  intros omega dl L0 N n2 b2 u Hd HN HP HU.
  assert (R := beta2_real _ _ _ _ _ _ _ (Rgt_not_eq _ _ Hd) HN HU ltac:(exists 0; split; [lia|]; apply RtoC_neq0; assert (Q := HP 0 ltac:(lia)); lra)).
  assert (B : b2 = RtoC (Re b2)). { destruct b2 as [x y]. unfold Cconj in R. cbn in R. injection R as R. cbn. apply C_ext; cbn; lra. }
  rewrite B in HU. destruct (guided_real _ _ _ _ _ _ _ Hd HU) as (UR & _). cbn [Re RtoC fst] in UR.
  assert (M : forall v, guided omega dl L0 N n2 b2 v -> exists z, forall j, j < N -> v j = (z * RtoC (u j))%C).
  { intros v HV. rewrite B in HV. destruct (guided_real _ _ _ _ _ _ _ Hd HV) as (V1 & V2).
    destruct (positive_simple_real _ _ _ _ _ _ Hd HN HP UR V1) as (t1 & T1). destruct (positive_simple_real _ _ _ _ _ _ Hd HN HP UR V2) as (t2 & T2).
    exists (t1, t2). intros j Hj. apply C_ext; [etransitivity; [apply (T1 j Hj)|]|etransitivity; [apply (T2 j Hj)|]]; cbn; ring. }
  intros x y HX HY (j0 & Hj0 & NZ). destruct (M x HX) as (z & Hz). destruct (M y HY) as (z' & Hz'). assert (Zn : z <> RtoC 0) by (intros ->; apply NZ; rewrite (Hz j0 Hj0); ring).
  exists (z' / z)%C. intros j Hj. rewrite (Hz j Hj), (Hz' j Hj). field. exact Zn.
Qed.

(** neighbouring columns are coupled *)
Lemma inv_factor_re (z : C) : Re z = 1%R -> (0 < Re (/ z)%C)%R.
Proof. intro H. destruct z as [x y]. cbn in *. subst x. apply Rmult_lt_0_compat; [lra|]. apply Rinv_0_lt_compat. nra. Qed.
Lemma coupled omega L0 r d N Np c : (0 < omega)%R -> (0 < L0)%R -> (fst r < snd r)%R -> (0 < d)%R -> 2 <= N -> c < N ->
  exists i, i < N /\ i <> c /\ along omega L0 r d N Np i c <> RtoC 0.
Proof.
  intros Ho HL Hr Hd HN Hc. exists (next N c). assert (HI := next_lt N c Hc). assert (NE : next N c <> c) by (unfold next; destruct (Nat.eqb_spec (S c) N); lia).
  split; [exact HI|]. split; [exact NE|]. set (dl := fun k => if Nat.eqb k c then RtoC 1 else RtoC 0).
  assert (E : along omega L0 r d N Np (next N c) c = csum N (fun k => along omega L0 r d N Np (next N c) k * dl k)%C).
  { symmetry. rewrite (csum_ext N _ (fun k => if Nat.eqb k c then along omega L0 r d N Np (next N c) k else RtoC 0)) by (intros k Hk; unfold dl; destruct (Nat.eqb k c); ring). apply csum_delta. exact Hc. }
  rewrite E, along_form by (assumption || lra). set (i := next N c) in *.
  assert (SN : forall s k, create_sfactor r L0 s omega N Np k <> RtoC 0) by (intros; apply sfactor_neq0; (assumption || lia)).
  assert (DN : RtoC d <> RtoC 0) by (apply RtoC_neq0; lra).
  unfold pax at 1. unfold ax at 1. rewrite (proj2 (Nat.ltb_lt 1 N)) by lia. unfold pax, ax. rewrite (proj2 (Nat.ltb_lt 1 N)) by lia.
  rewrite prev_next by exact HI. assert (PI : prev N i = c) by (apply prev_next; exact Hc). rewrite PI. unfold dl. rewrite Nat.eqb_refl.
  destruct (Nat.eqb_spec i c) as [|_]; [contradiction|]. intro Z.
  set (s1 := create_sfactor r L0 Fwd omega N Np i) in *. set (s2 := create_sfactor r L0 Bwd omega N Np (next N i)) in *. set (s3 := create_sfactor r L0 Bwd omega N Np i) in *.
  set (q := if Nat.eqb (next N i) c then RtoC 1 else RtoC 0) in Z.
  assert (K : (/ s2 * q + / s3 = RtoC 0)%C).
  { transitivity (s1 * (RtoC d * RtoC d) * (/ s1 * ((/ s2 * ((q - RtoC 0) / RtoC d) - / s3 * ((RtoC 0 - RtoC 1) / RtoC d)) / RtoC d)))%C; [field; repeat split; (exact DN || apply SN)|]. rewrite Z. ring. }
  assert (P2 : (0 < Re (/ s2)%C)%R) by (apply inv_factor_re; apply sfactor_shape; (assumption || lia)). assert (P3 : (0 < Re (/ s3)%C)%R) by (apply inv_factor_re; apply sfactor_shape; (assumption || lia)).
  apply (f_equal Re) in K. unfold q in K. destruct (Nat.eqb (next N i) c).
  - rewrite Cmult_1_r in K. autorewrite with reim in K. cbn [Re RtoC fst] in K. lra.
  - rewrite Cmult_0_r, Cplus_0_l in K. cbn [Re RtoC fst] in K. lra.
Qed.
(** a field that is one profile times an amplitude, whatever the profile *)
Lemma separate_any Nx Ny a t beta u E g Q c i0 : sep_eq Nx Ny a t beta u E -> (forall i j, i < Nx -> j < Ny -> E i j = (g i * Q j)%C) ->
  c < Nx -> (forall i, i < Nx -> i <> c -> beta i = RtoC 0) -> beta c <> RtoC 0 -> i0 < Nx -> i0 <> c -> a i0 c <> RtoC 0 -> exists lam, eig Ny t lam u.
Proof.
  intros HQ HE Hc HB BN Hi0 Ni0 AN.
  assert (F : forall i j, i < Nx -> j < Ny -> (Q j * csum Nx (fun i' => a i i' * g i') + g i * csum Ny (fun j' => t j j' * Q j') = beta i * u j)%C).
  { intros i j Hi Hj. rewrite <- (HQ i j Hi Hj). f_equal; rewrite <- csum_scal; apply csum_ext; intros k Hk; rewrite HE by assumption; ring. }
  assert (MUL : forall lam k, eig Ny t lam Q -> (forall j, j < Ny -> u j = (k * Q j)%C) -> eig Ny t lam u).
  { intros lam k HL HU j Hj. rewrite (csum_ext Ny _ (fun j' => k * (t j j' * Q j'))%C) by (intros j' Hj'; rewrite HU by exact Hj'; ring). rewrite csum_scal, (HL j Hj), (HU j Hj). ring. }
  destruct (classic (exists i, i < Nx /\ i <> c /\ g i <> RtoC 0)) as [(i & Hi & Ni & Gi)|NG].
  - assert (HL : eig Ny t (- csum Nx (fun i' => a i i' * g i') / g i)%C Q).
    { intros j Hj. assert (K := F i j Hi Hj). rewrite (HB i Hi Ni), Cmult_0_l in K. set (X := csum Nx _) in *. set (T := csum Ny _) in *.
      replace T with ((Q j * X + g i * T - Q j * X) / g i)%C by (field; exact Gi). rewrite K. field. exact Gi. }
    eexists. apply (MUL _ ((csum Nx (fun i' => a c i' * g i') + g c * (- csum Nx (fun i' => a i i' * g i') / g i)) / beta c)%C HL).
    intros j Hj. assert (K := F c j Hc Hj). rewrite (HL j Hj) in K. set (X := csum Nx (fun i' => a c i' * g i')%C) in *. set (Y := csum Nx (fun i' => a i i' * g i')%C) in *.
    replace (u j) with (beta c * u j / beta c)%C by (field; exact BN). rewrite <- K. field. split; assumption.
  - assert (Z : forall i, i < Nx -> i <> c -> g i = RtoC 0) by (intros i Hi Ni; apply NNPP; intro K; apply NG; eauto).
    assert (ZQ : forall j, j < Ny -> (g c * Q j = RtoC 0)%C).
    { intros j Hj. assert (K := F i0 j Hi0 Hj). rewrite (HB i0 Hi0 Ni0), Cmult_0_l, (Z i0 Hi0 Ni0), Cmult_0_l, Cplus_0_r in K.
      rewrite (csum_ext Nx _ (fun k => if Nat.eqb k c then (a i0 k * g k)%C else RtoC 0)) in K by (intros k Hk; destruct (Nat.eqb_spec k c); [reflexivity|rewrite (Z k) by assumption; ring]).
      rewrite csum_delta in K by exact Hc. transitivity (Q j * (a i0 c * g c) / a i0 c)%C; [field; exact AN|]. rewrite K. field. exact AN. }
    exists (RtoC 0). intros j Hj.
    assert (U : forall k, k < Ny -> u k = RtoC 0).
    { intros k Hk. assert (K := F c k Hc Hk). rewrite (csum_ext Nx _ (fun i => if Nat.eqb i c then (a c i * g i)%C else RtoC 0)) in K by (intros i Hi; destruct (Nat.eqb_spec i c); [reflexivity|rewrite (Z i) by assumption; ring]).
      rewrite csum_delta in K by exact Hc. rewrite <- csum_scal in K. rewrite (csum_0 Ny (fun j' => g c * (t k j' * Q j'))%C) in K by (intros j' Hj'; replace (g c * (t k j' * Q j'))%C with (t k j' * (g c * Q j'))%C by ring; rewrite ZQ by exact Hj'; ring).
      replace (u k) with (beta c * u k / beta c)%C by (field; exact BN). rewrite <- K. replace (Q k * (a c c * g c))%C with (a c c * (g c * Q k))%C by ring. rewrite ZQ by exact Hk. field. exact BN. }
    rewrite (U j Hj), Cmult_0_r. apply csum_0. intros k Hk. rewrite (U k Hk). ring.
Qed.

(** ** A profile is kept if and only if it belongs to a mode *)
Theorem C117_profile_kept_iff : forall e omega eps dl px L0 s c (P : nat -> R) src av s2 Hx Hy Ez, solver_exact e ->
  Simulation omega eps dl (Some [px; 0]%Z) "Ez" L0 = Ok s -> (0 < dl)%R -> 2 <= nd_nx eps -> 2 <= nd_ny eps -> straight_along_x eps -> one_field s -> c < nd_nx eps -> 
  nd_nx src = nd_nx eps -> nd_ny src = nd_ny eps ->
  (forall i j, i < nd_nx eps -> j < nd_ny eps -> nd_at src i j = if Nat.eqb i c then RtoC (P j) else RtoC 0) ->
  solve_fields e false av (upd_src src s) = (s2, Ok (Hx, Hy, Ez)) ->
  (exists g Q, forall i j, i < nd_nx eps -> j < nd_ny eps -> Ez (pix (nd_ny eps) i j) = (g i * Q j)%C) <-> (exists b2, guided omega dl L0 (nd_ny eps) (nd_at eps c) b2 (fun j => RtoC (P j))).
Proof.
  intros e omega eps dl px L0 s c P src av s2 Hx Hy Ez He HS Hd HNx HNy HST H1 Hc D1 D2 SRC HV.
  destruct (Ez_slots _ _ _ _ _ _ HS) as (SP & SD & SO & SL). destruct (new_derivs _ _ _ _ _ _ _ _ HS) as (_ & SNx & SNy).
  destruct (Simulation_matrix _ _ _ _ _ _ _ HS) as (_ & _ & _ & _ & Hw & HL & _).
  set (Nx := nd_nx eps) in *. set (Ny := nd_ny eps) in *. set (L := mkNd 1 Ny (fun j => nd_at eps c j)).
  assert (LS : nd_size L = Ny) by (unfold L, nd_size; cbn; lia). assert (LB : forall j, j < Ny -> nd_buf L j = nd_at eps c j) by reflexivity.
  assert (EG := fun lm w => eig_guided s L Ny (nd_at eps c) lm w SP ltac:(rewrite SD; exact Hd) HNy LS LB). rewrite SD, SO, SL in EG.
  assert (NS : nonsingular (Nx * Ny) (s_A s)). { apply one_field_iff in H1. unfold s_M in H1. rewrite SNx, SNy in H1. exact H1. }
  assert (M1 : s_M (upd_src src s) = Nx * Ny) by (unfold s_M; cbn; rewrite SNx, SNy; reflexivity).
  assert (SV := solve_fields_solves e false av (upd_src src s) s2 Hx Hy Ez He). rewrite M1 in SV. cbn [used_matrix upd_src s_A] in SV. specialize (SV NS HV).
  set (b := rhs _) in SV.
  assert (RH : forall i j, i < Nx -> j < Ny -> b (pix Ny i j) = ((if Nat.eqb i c then RtoC (P j) else RtoC 0) * Ci * RtoC omega)%C).
  { intros i j Hi Hj. unfold b, rhs. cbn [upd_src s_src s_omega]. rewrite SO. do 2 f_equal. assert (Q := SRC i j Hi Hj). unfold nd_at in Q. rewrite D2 in Q. exact Q. }
  assert (SEP := fun X => column_sep omega eps dl px L0 s L c (fun j => RtoC (P j)) b X HS Hd HNy LS HST Hc LB RH).
  split.
  - intros (g & Q & HG). assert (MP := MU_0_pos). assert (0 < INR Nx)%R by (apply lt_0_INR; lia).
    destruct (coupled omega L0 (0, INR Nx * dl)%R dl Nx (Z.to_nat px) c) as (i0 & Hi0 & Ni0 & AN); try assumption; [cbn [fst snd]; apply Rmult_lt_0_compat; assumption|].
    destruct (separate_any Nx Ny _ _ _ _ _ g Q c i0 (proj1 (SEP Ez) SV) HG Hc) as (lm & E); try assumption.
    + intros i Hi Ni. unfold drive. destruct (Nat.eqb_spec i c); [contradiction|reflexivity].
    + unfold drive. rewrite Nat.eqb_refl. apply Cmult_neq_0; [apply Ci_neq0|apply RtoC_neq0, Rgt_not_eq; apply Rmult_lt_0_compat; [exact Hw|apply Rmult_lt_0_compat; assumption]].
    + exists lm. apply EG. exact E.
  - intros (b2 & HG). apply EG in HG.
    destruct (separate_real Nx Ny _ _ _ _ P b2 _ (fun j _ => eq_refl) (fun j j' _ _ => mode_sym s L j j' SP) HG (proj1 (SEP Ez) SV)) as (g & GF & _); [|exists g, (fun j => RtoC (P j)); exact GF].
    intros E' HE' i j Hi Hj. apply (uniq_grid Nx Ny (s_A s) b Ez E' NS SV); [|exact Hi|exact Hj]. apply SEP. intros i' j' Hi' Hj'.
    fold Ny. rewrite (csum_ext (nd_nx eps) _ (fun k => (along omega L0 (0, INR (nd_nx eps) * dl)%R dl (nd_nx eps) (Z.to_nat px) i' k * E' k j')%C)) by (intros k Hk; destruct (pix_i Ny k j' Hj') as [-> ->]; reflexivity).
    rewrite (csum_ext Ny _ (fun k => (mode_matrix s L j' k * E' i' k)%C)) by (intros k Hk; destruct (pix_i Ny i' k Hk) as [-> ->]; reflexivity). apply HE'; assumption.
Qed.

(** A source line that leaves out two neighbouring pixels of the column never excites one mode alone. *)
Lemma narrow_not_guided omega dl L0 N n2 b2 (P : nat -> R) j0 : (0 < dl)%R -> 2 <= N -> guided omega dl L0 N n2 b2 (fun j => RtoC (P j)) -> j0 < N -> P j0 = 0%R -> P (next N j0) = 0%R -> forall j, j < N -> P j = 0%R.
Proof.
  intros Hd HN HG Hj0 E0 E1 j Hj. apply (next_walk N (fun j => P j = 0%R /\ P (next N j) = 0%R) j0 Hj0); [auto| |exact Hj]. clear j Hj.
  intros j Hj (A & B). split; [exact B|]. assert (K := HG (next N j) (next_lt N j Hj)). unfold second_diff in K. rewrite prev_next in K by exact Hj. rewrite A, B in K.
  assert (D : RtoC (dl ^ 2) <> RtoC 0) by (apply RtoC_neq0; apply pow_nonzero; lra).
  assert (Q : RtoC (P (next N (next N j))) = RtoC 0). { set (x := RtoC (P (next N (next N j)))) in *. transitivity (RtoC (dl ^ 2) * ((x - RtoC 2 * RtoC 0 + RtoC 0) / RtoC (dl ^ 2) + RtoC (omega ^ 2 * (MU_0 * L0) * (EPSILON_0 * L0) * n2 (next N j)) * RtoC 0))%C; [field; exact D|]. rewrite K. ring. }
  apply (f_equal Re) in Q. exact Q.
Qed.
Theorem C117_narrow_source : forall e omega eps dl px L0 s c (P : nat -> R) src av s2 Hx Hy Ez, solver_exact e ->
  Simulation omega eps dl (Some [px; 0]%Z) "Ez" L0 = Ok s -> (0 < dl)%R -> 2 <= nd_nx eps -> 2 <= nd_ny eps -> straight_along_x eps -> one_field s -> c < nd_nx eps -> 
  nd_nx src = nd_nx eps -> nd_ny src = nd_ny eps ->
  (forall i j, i < nd_nx eps -> j < nd_ny eps -> nd_at src i j = if Nat.eqb i c then RtoC (P j) else RtoC 0) ->
  (exists j, j < nd_ny eps /\ P j <> 0%R) -> (exists j, j < nd_ny eps /\ P j = 0%R /\ P (next (nd_ny eps) j) = 0%R) ->
  solve_fields e false av (upd_src src s) = (s2, Ok (Hx, Hy, Ez)) ->
  ~ exists g Q, forall i j, i < nd_nx eps -> j < nd_ny eps -> Ez (pix (nd_ny eps) i j) = (g i * Q j)%C.
Proof.
  intros e omega eps dl px L0 s c P src av s2 Hx Hy Ez He HS Hd HNx HNy HST H1 Hc D1 D2 SRC (jn & Hjn & NZ) (jz & Hjz & Z1 & Z2) HV HG.
  apply (C117_profile_kept_iff e omega eps dl px L0 s c P src av s2 Hx Hy Ez) in HG; try assumption. destruct HG as (b2 & HG).
  apply NZ. apply (narrow_not_guided omega dl L0 (nd_ny eps) (nd_at eps c) b2 P jz); assumption.
Qed.
(** ... which is what setup_modes writes for every line that is at least two pixels shorter than the column *)
Theorem C117_set_up_narrow : forall e omega eps dl px L0 s m c s1 av s2 Hx Hy Ez, solver_exact e ->
  Simulation omega eps dl (Some [px; 0]%Z) "Ez" L0 = Ok s -> (0 < dl)%R -> 2 <= nd_nx eps -> 2 <= nd_ny eps -> straight_along_x eps -> one_field s -> c < nd_nx eps ->
  (forall i j, i < nd_nx eps -> j < nd_ny eps -> on_line m (nd_nx eps) (nd_ny eps) i j -> i = c) ->
  (exists j, j < nd_ny eps /\ ~ on_line m (nd_nx eps) (nd_ny eps) c j /\ ~ on_line m (nd_nx eps) (nd_ny eps) c (next (nd_ny eps) j)) ->
  setup_modes e (fst (add_mode m s)) = (s1, Ok tt) -> (exists i j, i < nd_nx eps /\ j < nd_ny eps /\ nd_at (s_src s1) i j <> RtoC 0) ->
  solve_fields e false av s1 = (s2, Ok (Hx, Hy, Ez)) ->
  ~ exists g Q, forall i j, i < nd_nx eps -> j < nd_ny eps -> Ez (pix (nd_ny eps) i j) = (g i * Q j)%C.
Proof.
  intros e omega eps dl px L0 s m c s1 av s2 Hx Hy Ez He HS Hd HNx HNy HST H1 Hc HL (jz & Hjz & Z1 & Z2) HM (i0 & j0 & Hi0 & Hj0 & NZ) HV.
  destruct (fresh_slots _ _ _ _ _ _ _ HS) as (SX & SY & S0 & SE & SNx & SNy & SO & SL & SD & MD).
  assert (SU : setup_src e m (upd_modes [m] s) = (s1, Ok tt)).
  { unfold add_mode, modS in HM. cbn [fst] in HM. unfold setup_modes in HM. rewrite MD in HM. cbn [app] in HM.
    change (s_modes (upd_modes [m] s)) with [m] in HM. cbn [setup_list] in HM. unfold bind in HM. destruct (setup_src e m (upd_modes [m] s)) as [s3 [[]|x]]; [|discriminate]. exact HM. }
  apply setup_src_inv in SU as (a0 & a1 & b0 & b1 & v & EL & HZ & EE & EA & W & _ & S1). cbv zeta in *. change (s_src (upd_modes [m] s)) with (s_src s) in EA. change (s_eps (upd_modes [m] s)) with (s_eps s) in EA.
  set (val := mode_profile (md_scale m) v) in EA. set (vv := if String.eqb (md_normal m) "x" then _ else _) in EA.
  assert (RV : forall k, exists x, nd_buf vv k = RtoC x) by (intro k; unfold vv; destruct (String.eqb (md_normal m) "x"); cbn [nd_buf]; unfold val, mode_profile; eexists; reflexivity).
  assert (D := fun i j Hj => assign_at _ _ _ _ _ _ _ i j EA Hj). rewrite SX, SY in D.
  assert (OFF : forall i j, i < nd_nx eps -> j < nd_ny eps -> ~ on_line m (nd_nx eps) (nd_ny eps) i j -> nd_at (s_src s1) i j = RtoC 0).
  { intros i j Hi Hj HN. destruct (D i j Hj) as (_ & _ & _ & A2). rewrite A2; [unfold nd_at; apply S0|]. intro K. apply HN. apply (line_inds_on m _ _ i j _ _ _ _ EL). exact K. }
  assert (REAL : forall i j, i < nd_nx eps -> j < nd_ny eps -> exists x, nd_at (s_src s1) i j = RtoC x).
  { intros i j Hi Hj. destruct (classic (on_line m (nd_nx eps) (nd_ny eps) i j)) as [Y|Y]; [|exists 0%R; apply OFF; assumption].
    destruct (D i j Hj) as (_ & _ & A1 & _). rewrite A1 by (apply (line_inds_on m _ _ i j _ _ _ _ EL); exact Y). unfold nd_at. apply RV. }
  set (P := fun j => Re (nd_at (s_src s1) c j)).
  assert (SRC : forall i j, i < nd_nx eps -> j < nd_ny eps -> nd_at (s_src s1) i j = if Nat.eqb i c then RtoC (P j) else RtoC 0).
  { intros i j Hi Hj. destruct (Nat.eqb_spec i c) as [->|N]; [|apply OFF; try assumption; intro Y; apply N; apply (HL i j Hi Hj Y)]. unfold P. destruct (REAL c j Hc Hj) as (x & ->). reflexivity. }
  assert (ZZ : forall j, j < nd_ny eps -> ~ on_line m (nd_nx eps) (nd_ny eps) c j -> P j = 0%R) by (intros j Hj HN; unfold P; rewrite OFF by assumption; reflexivity).
  set (t := upd_src (s_src s1) s).
  assert (HV' : exists s3, solve_fields e false av t = (s3, Ok (Hx, Hy, Ez))).
  { revert HV. unfold solve_fields. rewrite S1. unfold t. cbn [upd_src s_src upd_W_in upd_modes]. change (rhs (upd_src (s_src s1) (upd_W_in W (upd_modes [m] s)))) with (rhs (upd_src (s_src s1) s)).
    change (s_M (upd_src (s_src s1) (upd_W_in W (upd_modes [m] s)))) with (s_M (upd_src (s_src s1) s)).
    change (s_A (upd_src (s_src s1) (upd_W_in W (upd_modes [m] s)))) with (s_A (upd_src (s_src s1) s)).
    destruct (negb _); [discriminate|]. cbv zeta. destruct (solver_direct _ _ _ _ _) as [Y|]; [|discriminate].
    change (derived_fields (upd_src (s_src s1) (upd_W_in W (upd_modes [m] s)))) with (derived_fields (upd_src (s_src s1) s)).
    change (s_epsC (upd_src (s_src s1) (upd_W_in W (upd_modes [m] s)))) with (s_epsC (upd_src (s_src s1) s)).
    destruct (derived_fields _ _ _ _) as [a b]. intro K. injection K as _ <- <- <-. eexists. reflexivity. }
  destruct HV' as (s3 & HV').
  apply (C117_narrow_source e omega eps dl px L0 s c P (s_src s1) av s3 Hx Hy Ez); try assumption.
  - exact (proj1 (D 0 0 ltac:(lia))).
  - exact (proj1 (proj2 (D 0 0 ltac:(lia)))).
  - rewrite (SRC i0 j0 Hi0 Hj0) in NZ. destruct (Nat.eqb i0 c); [|contradiction NZ; reflexivity]. exists j0. split; [exact Hj0|]. intro K. apply NZ. rewrite K. reflexivity.
  - exists jz. split; [exact Hjz|]. split; apply ZZ; try assumption. apply next_lt. exact Hjz.
Qed.
(** A mode on the whole column cannot be set up: the probe of its power drops the last pixel of one of the two fields. *)
Theorem C117_whole_line_refused : forall e omega eps dl np p L0 s m c s1 r, Simulation omega eps dl np p L0 = Ok s ->
  (fills_column m (nd_nx eps) (nd_ny eps) c /\ 3 <= nd_ny eps \/ fills_row m (nd_nx eps) (nd_ny eps) c /\ 3 <= nd_nx eps) ->
  setup_modes e (fst (add_mode m s)) = (s1, r) -> exists x, r = Raise x.
Proof.
  intros e omega eps dl np p L0 s m c s1 r HS HF HM. destruct (fresh_slots _ _ _ _ _ _ _ HS) as (SX & SY & S0 & SE & SNx & SNy & SO & SL & SD & MD).
  destruct r as [[]|x]; [exfalso|eauto].
  assert (SU : setup_src e m (upd_modes [m] s) = (s1, Ok tt)).
  { unfold add_mode, modS in HM. cbn [fst] in HM. unfold setup_modes in HM. rewrite MD in HM. cbn [app] in HM.
    change (s_modes (upd_modes [m] s)) with [m] in HM. cbn [setup_list] in HM. unfold bind in HM. destruct (setup_src e m (upd_modes [m] s)) as [s3 [[]|x]]; [|discriminate]. exact HM. }
  unfold setup_src in SU. destruct (compute_normalization e m (upd_modes [m] s)) as [W|] eqn:EW; [|discriminate]. clear SU. unfold compute_normalization in EW.
  destruct (norm_structure m (s_eps (upd_modes [m] s))) as [[ep ctr]|] eqn:EN; [|discriminate]. cbv zeta in EW.
  destruct (insert_mode _ _ _ _) as [src|]; [|discriminate]. destruct (solve_fields e false false _) as [s2 [[[f1 f2] f3]|]] eqn:ES; [|discriminate].
  assert (EP : nd_nx ep = nd_nx eps /\ nd_ny ep = nd_ny eps).
  { change (s_eps (upd_modes [m] s)) with (s_eps s) in EN. rewrite SE in EN. unfold norm_structure in EN. destruct (String.eqb (md_normal m) "x"); [|destruct (String.eqb (md_normal m) "y"); [|discriminate]]; (destruct (py_index _ _); [|discriminate]); injection EN as <- _; split; reflexivity. }
  destruct EP as (EP1 & EP2).
  assert (DIM : s_Nx s2 = nd_nx eps /\ s_Ny s2 = nd_ny eps).
  { assert (G : forall t t' f, solve_fields e false false t = (t', Ok f) -> s_Nx t' = s_Nx t /\ s_Ny t' = s_Ny t).
    { intros t t' f. unfold solve_fields. destruct (negb _); [discriminate|]. cbv zeta. destruct (solver_direct _ _ _ _ _) as [Y|]; [|discriminate]. destruct (derived_fields _ _ _ _) as [u w]. intro K. injection K as <- _. split; reflexivity. }
    destruct (G _ _ _ ES) as (-> & ->). cbn [upd_src s_Nx s_Ny set_eps upd_modes]. rewrite ?SNx, ?SNy, ?EP1, ?EP2. auto. }
  destruct DIM as (N1 & N2). change (s_eps (upd_modes [m] s)) with (s_eps s) in EN. rewrite SE in EN. unfold norm_structure in EN.
  assert (YB : forall N (j0 j1 : Z), 3 <= N -> slice_bound N j0 = 0 -> slice_bound N j1 = N -> slice_bound N (j1 + 1) = N).
  { intros N j0 j1 HN A B. unfold slice_bound in *. destruct (Z.ltb_spec j1 0), (Z.ltb_spec (j1 + 1) 0); lia. }
  assert (BD : forall n, 3 <= n -> bdim (n - 1) n = None).
  { intros n Hn. unfold bdim. destruct (Nat.eqb_spec (n - 1) n); [lia|]. destruct (Nat.eqb_spec (n - 1) 1); [lia|]. destruct (Nat.eqb_spec n 1); [lia|]. reflexivity. }
  destruct HF as [((HN & Hc & HL) & H3)|((HN & Hc & HL) & H3)]; rewrite HN in *.
  - change (String.eqb "x" "x") with true in EN. destruct (py_index _ _) as [i|]; [|discriminate]. injection EN as _ <-.
    unfold flux_probe, line_inds in EW. change (String.eqb "x" "x") with true in EW. cbn [fst snd] in EW. cbv zeta in EW.
    do 2 (match type of EW with match ?x with Some _ => _ | None => _ end = _ => destruct x; [|discriminate] end).
    set (j0 := Z.quot (2 * snd (md_center m) - md_width m) 2) in EW. set (j1 := Z.quot (2 * snd (md_center m) + md_width m) 2) in EW. 
    assert (J : slice_bound (nd_ny eps) j0 = 0 /\ slice_bound (nd_ny eps) j1 = nd_ny eps).
    { assert (BY := slice_bound_le (nd_ny eps) j0). assert (BY' := slice_bound_le (nd_ny eps) j1).
      assert (Q : forall j, j < nd_ny eps -> slice_bound (nd_ny eps) j0 <= j < slice_bound (nd_ny eps) j1).
      { intros j Hj. assert (K := proj2 (HL c j Hc Hj) eq_refl). unfold on_line in K. destruct (md_center m) as [c0 c1] eqn:EC. cbn [fst snd] in *. destruct K as [(_ & _ & K)|(K & _)]; [|rewrite HN in K; discriminate]. apply in_slice_bounds in K. exact K. }
      assert (Q0 := Q 0 ltac:(lia)). assert (Q1 := Q (nd_ny eps - 1) ltac:(lia)). lia. }
    destruct J as (J0 & J1). assert (J2 := YB _ _ _ H3 J0 J1).
    unfold nd_zip in EW. match type of EW with context [bdim ?a ?b] => destruct (bdim a b) end.
    2: discriminate.
    match type of EW with context [bdim ?a ?b] => assert (Z1 : a = nd_ny eps - 1); [|assert (Z2 : b = nd_ny eps)] end.
    { unfold nd_drop_last, nd_average, nd_slice. cbn [nd_ny]. rewrite N2, J0, J2, Nat.sub_0_r. unfold slice_bound. cbn [Z.ltb Z.compare]. lia. }
    { unfold nd_slice. cbn [nd_ny]. rewrite N2, J0, J1. lia. }
    rewrite Z1, Z2, BD in EW by exact H3. discriminate.
  - change (String.eqb "y" "x") with false in EN. change (String.eqb "y" "y") with true in EN. cbv iota in EN. destruct (py_index _ _) as [i|]; [|discriminate]. injection EN as _ <-.
    unfold flux_probe, line_inds in EW. change (String.eqb "y" "x") with false in EW. change (String.eqb "y" "y") with true in EW. cbv iota in EW. cbn [fst snd] in EW. cbv zeta in EW.
    do 2 (match type of EW with match ?x with Some _ => _ | None => _ end = _ => destruct x; [|discriminate] end).
    set (j0 := Z.quot (2 * fst (md_center m) - md_width m) 2) in EW. set (j1 := Z.quot (2 * fst (md_center m) + md_width m) 2) in EW. 
    assert (J : slice_bound (nd_nx eps) j0 = 0 /\ slice_bound (nd_nx eps) j1 = nd_nx eps).
    { assert (BY := slice_bound_le (nd_nx eps) j0). assert (BY' := slice_bound_le (nd_nx eps) j1).
      assert (Q : forall j, j < nd_nx eps -> slice_bound (nd_nx eps) j0 <= j < slice_bound (nd_nx eps) j1).
      { intros j Hj. assert (K := proj2 (HL j c Hj Hc) eq_refl). unfold on_line in K. destruct (md_center m) as [c0 c1] eqn:EC. cbn [fst snd] in *. destruct K as [(K & _)|(_ & K & _)]; [rewrite HN in K; discriminate|]. apply in_slice_bounds in K. exact K. }
      assert (Q0 := Q 0 ltac:(lia)). assert (Q1 := Q (nd_nx eps - 1) ltac:(lia)). lia. }
    destruct J as (J0 & J1). assert (J2 := YB _ _ _ H3 J0 J1).
    unfold nd_zip in EW.
    match type of EW with context [bdim ?a ?b] => assert (Z1 : a = nd_nx eps - 1); [|assert (Z2 : b = nd_nx eps)] end.
    { unfold nd_drop_last, nd_average, nd_slice. cbn [nd_nx]. rewrite N1, J0, J2, Nat.sub_0_r. unfold slice_bound. cbn [Z.ltb Z.compare]. lia. }
    { unfold nd_slice. cbn [nd_nx]. rewrite N1, J0, J1. lia. }
    rewrite Z1, Z2, BD in EW by exact H3. discriminate.
Qed.

(** ** A guide of three pixels across *)
Definition guide_env (v : vec) (lm : C) : env := mkEnv false (fun _ n A b => exact_solver n A b) (fun _ _ _ _ => 0%R)
  (fun N A _ _ => if excluded_middle_informative (unit_eigenvector N A lm v) then Ok v else Raise ValueError) (fun _ E => (E, E)).
Lemma guide_env_correct v lm : eigs_correct (guide_env v lm) (fun _ _ _ _ => lm).
Proof. intros N A o r u H. cbn [guide_env e_eigs] in H. destruct (excluded_middle_informative _) as [Q|]; [injection H as <-; exact Q|discriminate]. Qed.
Lemma guide_env_only v lm N A o r w : e_eigs (guide_env v lm) N A o r = Ok w -> w = v.
Proof. intro H. cbn [guide_env e_eigs] in H. destruct (excluded_middle_informative _) as [Q|]; [injection H as <-; reflexivity|discriminate]. Qed.
Definition across_mode : mode := mkMode 1 "x" (2, 2)%Z 3 1 1.
Lemma across_line : x_line across_mode 2 0 3.
Proof. unfold x_line, across_mode; cbn. auto. Qed.
Lemma across_fills : fills_column across_mode 6 3 2.
Proof.
  split; [reflexivity|]. split; [lia|]. intros i j Hi Hj. unfold on_line, across_mode. cbn [md_center md_width md_normal]. rewrite !in_slice_bounds. split.
  - intros [(_ & A & _)|(A & _)]; [|discriminate]. unfold slice_bound in A. cbn in A. lia.
  - intros ->. left. split; [reflexivity|]. cbn. lia.
Qed.
Definition guide3 (ec : nat -> R) : rvec := fun k => ec (k mod 3).
Lemma guide3_at ec Nx i j : j < 3 -> nd_at (mkNd Nx 3 (guide3 ec)) i j = ec j.
Proof. intro Hj. unfold nd_at, guide3. cbn [nd_buf nd_ny]. f_equal. apply flat_mod. exact Hj. Qed.
Lemma guide3_straight ec Nx : straight_along_x (mkNd Nx 3 (guide3 ec)).
Proof. intros i i' j Hi Hi' Hj. cbn [nd_ny] in Hj. rewrite !guide3_at by exact Hj. reflexivity. Qed.
Lemma across_slice t ec : square_src t -> s_Nx t = 6 -> s_Ny t = 3 -> (forall i j, i < 6 -> j < 3 -> nd_at (s_eps t) i j = ec j) ->
  nd_size (line_slice t 2 0 3) = 3 /\ forall j, j < 3 -> nd_buf (line_slice t 2 0 3) j = ec j.
Proof.
  intros TQ Tx Ty TE. split; [apply (line_slice_size t 2 0 3 TQ); lia|]. intros j Hj. destruct TQ as (T1 & T2 & _).
  unfold line_slice. cbn [nd_slice nd_buf]. rewrite T1, T2, Tx, Ty. rewrite !slice_bound_in by lia.
  replace (Z.to_nat (Z.of_nat (0 + 3)) - Z.to_nat (Z.of_nat 0))%nat with 3%nat by lia. rewrite Nat.div_small, Nat.mod_small by lia. apply TE; lia.
Qed.
Lemma across_inserted ec v lm s : fam_sim "Ez" 6 3 0 0 (guide3 ec) = Ok s -> guided ex_omega 1 1 3 ec lm v -> rsum 3 (fun k => Cmod (v k) ^ 2)%R = 1%R ->
  exists src, insert_mode (guide_env v lm) across_mode s (s_src s) = Ok src /\ nd_nx src = 6 /\ nd_ny src = 3 /\
    (forall i j, i < 6 -> j < 3 -> nd_at src i j = if Nat.eqb i 2 then mode_profile 1 v j else RtoC 0) /\
    exists s2 a b z, solve_fields (guide_env v lm) false true (upd_src src s) = (s2, Ok (a, b, z)).
Proof.
  intros HS HG HN. destruct (fam_basic _ _ _ _ HS) as (Hp & Hd & HL & Ho & Ex & Ey & Ee & Es & HQ). set (e := guide_env v lm).
  destruct (across_slice s ec HQ Ex Ey ltac:(intros i j Hi Hj; rewrite Ee; apply guide3_at; exact Hj)) as (LS & LB).
  assert (E0 : e_eigs e 3 (mode_matrix s (line_slice s 2 0 3)) (md_order across_mode) (beta2 across_mode s) = Ok v).
  { cbn [e guide_env e_eigs]. destruct (excluded_middle_informative _) as [|Q]; [reflexivity|]. exfalso; apply Q. split; [|exact HN].
    assert (K := eig_guided s (line_slice s 2 0 3) 3 ec lm v Hp ltac:(rewrite Hd; lra) ltac:(lia) LS LB). rewrite Hd, HL, Ho in K. exact (proj2 K HG). }
  destruct (insert_x across_mode 2 0 3 e s (s_src s) v across_line HQ) as (d & HD0 & M1 & M2 & HD); try lia; try exact E0.
  { rewrite Es, Ex. reflexivity. }
  { rewrite Es, Ey. reflexivity. }
  rewrite Ex in M1. rewrite Ey in M2. exists d. split; [exact HD0|]. split; [exact M1|]. split; [exact M2|]. split.
  - intros i j Hi Hj. rewrite HD by lia. rewrite (proj2 (Nat.leb_le 0 j)), (proj2 (Nat.ltb_lt j (0 + 3))), Nat.sub_0_r, !andb_true_r by lia. rewrite Es. reflexivity.
  - unfold solve_fields. assert (SZ : nd_size (s_src (upd_src d s)) = s_M (upd_src d s)). { unfold nd_size, s_M. cbn [upd_src s_src s_Nx s_Ny]. rewrite M1, M2, Ex, Ey. reflexivity. }
    rewrite SZ, Nat.eqb_refl. cbn [negb]. match goal with |- context [solver_direct e ?n ?A ?b _] => destruct (solver_direct_default_ok e n A b) as [Y ->] end. destruct (derived_fields _ _ _ _) as [a3 b3]. do 4 eexists. reflexivity.
Qed.
Lemma guide_env_exact v lm : solver_exact (guide_env v lm).
Proof. intros sv n A b HA. apply exact_solver_correct; assumption. Qed.
Lemma k2_is n : RtoC (ex_omega ^ 2 * (MU_0 * 1) * (EPSILON_0 * 1) * n) = RtoC (16 * n).
Proof. f_equal. rewrite <- ex_omega_sq. ring. Qed.

(** The odd mode of a core of two pixels next to a third of lower permittivity. *)
Definition odd_profile : nat -> R := fun j => match j with 1 => / sqrt 2 | 2 => - / sqrt 2 | _ => 0 end%R.
Definition one_low : nat -> R := fun j => match j with O => 1 | _ => 2 end%R.
Lemma odd_guided : guided ex_omega 1 1 3 one_low (RtoC 29) (fun j => RtoC (odd_profile j)).
Proof.
  intros j Hj. rewrite k2_is. unfold second_diff. assert (E : RtoC (1 ^ 2) = RtoC 1) by (f_equal; ring). rewrite E.
  destruct j as [|[|[|]]]; [..|lia]; unfold next, prev; cbn [Nat.eqb Nat.sub odd_profile one_low]; apply C_ext; cbn; field; try (apply Rgt_not_eq, sqrt_lt_R0; lra).
Qed.
Example C117_met : exists e lam s src s2 Hx Hy Ez, let eps := mkNd 6 3 (guide3 one_low) in
  solver_exact e /\ eigs_correct e lam /\ (forall A o r v, e_eigs e 3 A o r = Ok v -> (exists b2, guided ex_omega 1 1 3 (nd_at eps 2) b2 v) -> one_phase 3 v) /\
  Simulation ex_omega eps 1 (Some [0; 0]%Z) "Ez" 1 = Ok s /\ straight_along_x eps /\ nd_at eps 0 0 <> nd_at eps 0 1 /\ fills_column across_mode 6 3 2 /\ one_field s /\
  insert_mode e across_mode s (s_src s) = Ok src /\ solve_fields e false true (upd_src src s) = (s2, Ok (Hx, Hy, Ez)) /\ nd_at src 2 1 <> RtoC 0.
Proof.
  destruct (fam_sim_ok "Ez" 6 3 0 0 (guide3 one_low) (or_introl eq_refl)) as [s HS]. set (v := fun j => RtoC (odd_profile j)).
  assert (P2 : (0 < / sqrt 2)%R) by (apply Rinv_0_lt_compat, sqrt_lt_R0; lra).
  assert (SQ : (/ sqrt 2 * / sqrt 2 = / 2)%R) by (rewrite <- Rinv_mult, sqrt_sqrt by lra; reflexivity).
  assert (HN : rsum 3 (fun k => Cmod (v k) ^ 2)%R = 1%R). { cbn [rsum]. unfold v. rewrite !Cmod_R, !pow2_abs. cbn [odd_profile]. nra. }
  destruct (across_inserted one_low v (RtoC 29) s HS odd_guided HN) as (src & HI & M1 & M2 & HD & s2 & a & b & z & SF).
  destruct (fam_plain _ _ _ _ HS ltac:(lia) ltac:(lia)) as (_ & _ & NS & _).
  { intros k Hk. unfold guide3, one_low. destruct (k mod 3); lra. }
  exists (guide_env v (RtoC 29)), (fun _ _ _ _ => RtoC 29), s, src, s2, a, b, z. split; [apply guide_env_exact|]. split; [apply guide_env_correct|].
  split; [intros A o r w HW _; apply guide_env_only in HW; subst w; exists (RtoC 1), odd_profile; intros k Hk; unfold v; ring|].
  split; [exact HS|]. split; [apply guide3_straight|]. split; [rewrite !guide3_at by lia; cbn; lra|]. split; [apply across_fills|]. split; [apply one_field_iff; exact NS|]. split; [exact HI|]. split; [exact SF|].
  rewrite (HD 2 1) by lia. cbn [Nat.eqb]. unfold mode_profile, v. cbn [odd_profile]. intro K. apply (f_equal Re) in K. cbn [Re RtoC fst] in K.
  assert (Q : (0 < Cmod (RtoC (/ sqrt 2) * RtoC 1)%C * np_sign (Re (RtoC (/ sqrt 2) * RtoC 1)%C))%R); [|rewrite K in Q; lra].
  replace (RtoC (/ sqrt 2) * RtoC 1)%C with (RtoC (/ sqrt 2)) by ring. rewrite Cmod_R, Rabs_pos_eq by lra. cbn [Re RtoC fst]. unfold np_sign. destruct (Rlt_dec (/ sqrt 2) 0); [lra|]. destruct (Rlt_dec 0 (/ sqrt 2)); [lra|contradiction].
Qed.
(** An eigenvector of a degenerate mode has no reason to be of one phase, and then what is written is no mode: the travelling wave
    around three equal pixels, of the same propagation constant as the two standing ones. *)
Definition whirl : vec := fun j => match j with O => RtoC (/ sqrt 3) | 1%nat => (- / 2 * / sqrt 3, sqrt 3 / 2 * / sqrt 3)%R | _ => (- / 2 * / sqrt 3, - (sqrt 3 / 2) * / sqrt 3)%R end.
Definition all_two : nat -> R := fun _ => 2%R.
Lemma whirl_guided : guided ex_omega 1 1 3 all_two (RtoC 29) whirl.
Proof.
  assert (S3 : (sqrt 3 <> 0)%R) by (apply Rgt_not_eq, sqrt_lt_R0; lra).
  intros j Hj. rewrite k2_is. unfold second_diff. assert (E : RtoC (1 ^ 2) = RtoC 1) by (f_equal; ring). rewrite E. unfold all_two.
  destruct j as [|[|[|]]]; [..|lia]; unfold next, prev; cbn [Nat.eqb Nat.sub whirl]; apply C_ext; cbn; field; exact S3.
Qed.
Theorem C117_degenerate_refuted :
  ~ (forall e lam omega eps dl px L0 s m c src av s2 Hx Hy Ez, solver_exact e -> eigs_correct e lam ->
     Simulation omega eps dl (Some [px; 0]%Z) "Ez" L0 = Ok s -> (0 < dl)%R -> 2 <= nd_nx eps -> 2 <= nd_ny eps -> straight_along_x eps ->
     fills_column m (nd_nx eps) (nd_ny eps) c -> one_field s ->
     insert_mode e m s (s_src s) = Ok src -> solve_fields e false av (upd_src src s) = (s2, Ok (Hx, Hy, Ez)) ->
     exists g Q, forall i j, i < nd_nx eps -> j < nd_ny eps -> Ez (pix (nd_ny eps) i j) = (g i * Q j)%C).
Proof.
  intro H. destruct (fam_sim_ok "Ez" 6 3 0 0 (guide3 all_two) (or_introl eq_refl)) as [s HS].
  assert (P3 : (0 < / sqrt 3)%R) by (apply Rinv_0_lt_compat, sqrt_lt_R0; lra). assert (Q3 : (0 < sqrt 3)%R) by (apply sqrt_lt_R0; lra).
  assert (SQ : (/ sqrt 3 * / sqrt 3 = / 3)%R) by (rewrite <- Rinv_mult, sqrt_sqrt by lra; reflexivity). assert (SS : (sqrt 3 * sqrt 3 = 3)%R) by (apply sqrt_sqrt; lra).
  assert (M3 : forall k, k < 3 -> (Cmod (whirl k) = / sqrt 3)%R).
  { intros k Hk. unfold Cmod. rewrite <- (sqrt_Rsqr (/ sqrt 3)) by lra. f_equal. unfold Rsqr. rewrite SQ. destruct k as [|[|[|]]]; [..|lia]; cbn [whirl fst snd RtoC].
    - nra.
    - replace ((- / 2 * / sqrt 3) ^ 2 + (sqrt 3 / 2 * / sqrt 3) ^ 2)%R with ((/ 4 + (sqrt 3 * sqrt 3) / 4) * (/ sqrt 3 * / sqrt 3))%R by (field; lra). rewrite SS, SQ. lra.
    - replace ((- / 2 * / sqrt 3) ^ 2 + (- (sqrt 3 / 2) * / sqrt 3) ^ 2)%R with ((/ 4 + (sqrt 3 * sqrt 3) / 4) * (/ sqrt 3 * / sqrt 3))%R by (field; lra). rewrite SS, SQ. lra. }
  assert (HN : rsum 3 (fun k => Cmod (whirl k) ^ 2)%R = 1%R). { cbn [rsum]. rewrite !M3 by lia. nra. }
  destruct (across_inserted all_two whirl (RtoC 29) s HS whirl_guided HN) as (src & HI & M1 & M2 & HD & s2 & a & b & z & SF).
  destruct (fam_plain _ _ _ _ HS ltac:(lia) ltac:(lia)) as (_ & _ & NS & _).
  { intros k Hk. unfold guide3, all_two. lra. }
  assert (ONE : one_field s) by (apply one_field_iff; exact NS).
  set (eps := mkNd 6 3 (guide3 all_two)).
  assert (Q := H (guide_env whirl (RtoC 29)) (fun _ _ _ _ => RtoC 29) ex_omega eps 1%R 0%Z 1%R s across_mode 2 src true s2 a b z (guide_env_exact _ _) (guide_env_correct _ _) HS ltac:(lra) ltac:(cbn; lia) ltac:(cbn; lia)
    (guide3_straight _ _) across_fills ONE HI SF). clear H.
  set (P := fun j => match j with O => / sqrt 3 | _ => - / sqrt 3 end%R).
  assert (SRC : forall i j, i < nd_nx eps -> j < nd_ny eps -> nd_at src i j = if Nat.eqb i 2 then RtoC (P j) else RtoC 0).
  { intros i j Hi Hj. cbn [eps nd_nx nd_ny] in Hi, Hj. rewrite HD by assumption. destruct (Nat.eqb i 2); [|reflexivity]. unfold mode_profile. f_equal. replace (whirl j * RtoC 1)%C with (whirl j) by ring. rewrite (M3 j Hj).
    unfold np_sign. destruct j as [|[|[|]]]; [..|lia]; cbn [whirl P Re RtoC fst].
    - destruct (Rlt_dec (/ sqrt 3) 0); [lra|]. destruct (Rlt_dec 0 (/ sqrt 3)); [ring|contradiction].
    - destruct (Rlt_dec (- / 2 * / sqrt 3) 0) as [|N]; [ring|exfalso; apply N; nra].
    - destruct (Rlt_dec (- / 2 * / sqrt 3) 0) as [|N]; [ring|exfalso; apply N; nra]. }
  apply (C117_profile_kept_iff (guide_env whirl (RtoC 29)) ex_omega eps 1%R 0%Z 1%R s 2 P src true s2 a b z (guide_env_exact _ _) HS ltac:(lra) ltac:(cbn; lia) ltac:(cbn; lia) (guide3_straight _ _) ONE ltac:(cbn; lia) M1 M2 SRC SF) in Q.
  destruct Q as (b2 & HG). assert (G0 := HG 0 ltac:(cbn; lia)). assert (G1 := HG 1 ltac:(cbn; lia)). unfold second_diff, next, prev in G0, G1. cbn [eps nd_ny nd_nx Nat.eqb Nat.sub P] in G0, G1.
  change (mkNd 6 3 (guide3 all_two)) with eps in G0, G1. unfold eps in G0, G1. rewrite !guide3_at in G0, G1 by lia. rewrite k2_is in G0, G1. unfold all_two in G0, G1.
  assert (E1 : RtoC (1 ^ 2) = RtoC 1) by (f_equal; ring). rewrite E1 in G0, G1. apply (f_equal Re) in G0. apply (f_equal Re) in G1. destruct b2 as [x y]. cbn in G0, G1. set (q := (/ sqrt 3)%R) in *. clearbody q.
  assert (X0 : (q * (x - 28) = 0)%R) by (field_simplify in G0; nra || lra). assert (X1 : (q * (x - 30) = 0)%R) by (field_simplify in G1; nra || lra). nra.
Qed.
(** The claim for modes that are set up the usual way, and a counterexample: the line of [mid_mode] covers three of six pixels. *)
Definition C117_property : Prop := forall e lam omega eps dl px L0 s m s1 av s2 Hx Hy Ez, solver_exact e -> eigs_correct e lam ->
  Simulation omega eps dl (Some [px; 0]%Z) "Ez" L0 = Ok s -> (0 < dl)%R -> 2 <= nd_nx eps -> 2 <= nd_ny eps -> straight_along_x eps -> md_normal m = "x"%string -> one_field s ->
  setup_modes e (fst (add_mode m s)) = (s1, Ok tt) -> solve_fields e false av s1 = (s2, Ok (Hx, Hy, Ez)) ->
  exists g Q, forall i j, i < nd_nx eps -> j < nd_ny eps -> Ez (pix (nd_ny eps) i j) = (g i * Q j)%C.
Theorem C117_property_refuted : ~ C117_property.
Proof.
  intro H. destruct (fam_sim_ok "Ez" 6 6 0 0 two_eps (or_introl eq_refl)) as [s HS].
  destruct (fam_basic _ _ _ _ HS) as (Hp & Hd & HL & Ho & Ex & Ey & Ee & Es & HQ). destruct (fam_plain _ _ _ _ HS ltac:(lia) ltac:(lia)) as (_ & _ & NS & _); [intros; unfold two_eps; lra|].
  assert (ONE : one_field s) by (apply one_field_iff; exact NS). destruct (fresh_slots _ _ _ _ _ _ _ HS) as (_ & _ & _ & _ & _ & _ & _ & _ & _ & MD).
  assert (HS' : fam_sim "Ez" 6 6 0 0 two_eps = Ok s) by exact HS.
  set (x := (/ sqrt 3)%R). assert (Hx2 : (x ^ 2 = / 3)%R) by (unfold x; rewrite <- third; unfold Rsqr; ring).
  assert (PX : (0 < x)%R) by (apply Rinv_0_lt_compat, sqrt_lt_R0; lra).
  destruct (uniform_mode_set_up x 6 s (s_src s) Hx2 HS ltac:(lia) ltac:(rewrite Es; reflexivity) ltac:(rewrite Es; reflexivity)) as (s1 & ? & ? & ? & ? & ? & R1 & V1 & _).
  assert (ES : upd_src (s_src s) s = s) by (destruct s; reflexivity). rewrite ES in R1. set (e := sign_env (fun _ => RtoC x)) in *.
  assert (R2 : exists t1, setup_src e mid_mode (upd_modes [mid_mode] s) = (t1, Ok tt) /\ s_src t1 = s_src s1 /\ s_M t1 = s_M s).
  { assert (G : setup_src e mid_mode (upd_modes [mid_mode] s) = (upd_modes [mid_mode] s1, Ok tt)).
    { unfold setup_src in *. assert (CN : compute_normalization e mid_mode (upd_modes [mid_mode] s) = compute_normalization e mid_mode s).
      { unfold compute_normalization. change (s_eps (upd_modes [mid_mode] s)) with (s_eps s). destruct (norm_structure mid_mode (s_eps s)) as [[ep ctr]|]; [|reflexivity]. cbv zeta.
        change (insert_mode e mid_mode (set_eps ep (upd_modes [mid_mode] s)) (s_src (set_eps ep (upd_modes [mid_mode] s)))) with (insert_mode e mid_mode (set_eps ep s) (s_src (set_eps ep s))).
        destruct (insert_mode e mid_mode (set_eps ep s) (s_src (set_eps ep s))) as [sr|]; [|reflexivity]. change (upd_src sr (set_eps ep (upd_modes [mid_mode] s))) with (upd_modes [mid_mode] (upd_src sr (set_eps ep s))).
        set (t := upd_src sr (set_eps ep s)). unfold solve_fields. change (s_src (upd_modes [mid_mode] t)) with (s_src t). change (s_M (upd_modes [mid_mode] t)) with (s_M t). change (s_A (upd_modes [mid_mode] t)) with (s_A t). change (rhs (upd_modes [mid_mode] t)) with (rhs t).
        destruct (negb _); [reflexivity|]. cbv zeta. destruct (solver_direct _ _ _ _ _); [|reflexivity]. change (derived_fields (upd_modes [mid_mode] t)) with (derived_fields t). change (s_epsC (upd_modes [mid_mode] t)) with (s_epsC t).
        destruct (derived_fields _ _ _ _) as [u w]. reflexivity. }
      rewrite CN. destruct (compute_normalization e mid_mode s) as [W|]; [|discriminate]. cbv zeta in *.
      change (insert_mode e mid_mode (upd_W_in W (upd_modes [mid_mode] s)) (s_src (upd_W_in W (upd_modes [mid_mode] s)))) with (insert_mode e mid_mode (upd_W_in W s) (s_src (upd_W_in W s))).
      destruct (insert_mode e mid_mode (upd_W_in W s) (s_src (upd_W_in W s))) as [d|]; [|discriminate]. injection R1 as <-. reflexivity. }
    exists (upd_modes [mid_mode] s1). split; [exact G|]. split; [reflexivity|]. apply setup_src_inv in R1 as (? & ? & ? & ? & ? & _ & _ & _ & _ & W & _ & ->). reflexivity. }
  destruct R2 as (t1 & R2 & E2 & EM).
  assert (SM : setup_modes e (fst (add_mode mid_mode s)) = (t1, Ok tt)).
  { unfold add_mode, modS. cbn [fst]. rewrite MD. cbn [app]. unfold setup_modes. change (s_modes (upd_modes [mid_mode] s)) with [mid_mode]. cbn [setup_list]. unfold bind. rewrite R2. reflexivity. }
  assert (DIM : nd_nx (s_src t1) = 6 /\ nd_ny (s_src t1) = 6).
  { apply setup_src_inv in R2 as (? & ? & ? & ? & ? & _ & _ & _ & EA & _). cbv zeta in EA. destruct (assign_at _ _ _ _ _ _ _ 0 0 EA ltac:(cbn [upd_modes s_src]; rewrite Es; cbn; lia)) as (A & B & _). cbn [upd_modes s_src] in A, B. rewrite Es in A, B. auto. }
  assert (SF : exists s3 a3 b3 z3, solve_fields e false true t1 = (s3, Ok (a3, b3, z3))).
  { unfold solve_fields. assert (SZ : nd_size (s_src t1) = s_M t1). { unfold nd_size. rewrite (proj1 DIM), (proj2 DIM), EM. unfold s_M. rewrite Ex, Ey. reflexivity. }
    rewrite SZ, Nat.eqb_refl. cbn [negb]. match goal with |- context [solver_direct e ?n ?A ?b _] => destruct (solver_direct_default_ok e n A b) as [Y ->] end. destruct (derived_fields _ _ _ _) as [a3 b3]. do 4 eexists. reflexivity. }
  destruct SF as (s3 & a3 & b3 & z3 & SF). set (eps := mkNd 6 6 two_eps).
  assert (ST : straight_along_x eps) by (intros i i' j _ _ _; reflexivity).
  assert (Q := H e (fun _ _ _ _ => RtoC 32) ex_omega eps 1%R 0%Z 1%R s mid_mode t1 true s3 a3 b3 z3 (sign_env_exact _) (sign_env_correct _) HS ltac:(lra) ltac:(cbn; lia) ltac:(cbn; lia) ST eq_refl ONE SM SF).
  revert Q. apply (C117_set_up_narrow e ex_omega eps 1%R 0%Z 1%R s mid_mode 2 t1 true s3 a3 b3 z3 (sign_env_exact _) HS ltac:(lra) ltac:(cbn; lia) ltac:(cbn; lia) ST ONE ltac:(cbn; lia)); try assumption.
  - intros i j Hi Hj [(_ & A & _)|(A & _)]; [|discriminate]. cbn [eps nd_nx nd_ny mid_mode md_center md_width fst snd] in A. apply in_slice_bounds in A. unfold slice_bound in A. cbn in A. lia.
  - exists 4. cbn [eps nd_nx nd_ny next Nat.eqb]. split; [lia|]. split; intros [(_ & _ & A)|(A & _)]; try discriminate; cbn [mid_mode md_center md_width fst snd] in A; apply in_slice_bounds in A; unfold slice_bound, half in A; cbn in A; lia.
  - exists 2, 1. cbn [eps nd_nx nd_ny]. split; [lia|]. split; [lia|]. rewrite E2, V1 by lia. unfold mode_profile. intro K. apply (f_equal Re) in K. cbn [Re RtoC fst] in K.
    replace (RtoC x * RtoC 1)%C with (RtoC x) in K by ring. rewrite Cmod_R, Rabs_pos_eq in K by lra. cbn [Re RtoC fst] in K. unfold np_sign in K. destruct (Rlt_dec x 0); [lra|]. destruct (Rlt_dec 0 x); [lra|contradiction].
Qed.
