(** Adjoint gradients in Hz polarization (C39). *)
From Coq Require Import Reals Lra Lia List ZArith Arith Bool String.
From Coquelicot Require Import Coquelicot.
From Verif Require Import Base Linear MCore MSim Spec PCore PSim PEx PropsCore PropsNl PropsIter MFilter PFilter PTanh PropsFilter MOpt PDiff PGrad PExOpt PropsGrad.
Import ListNotations.
Local Open Scope nat_scope.

(* ------------------------------------------------------------------ *)
(** ** Differentiability of solutions under a matrix perturbation *)

(** the matrices E t vanish at t = 0 *)
Definition msmall0 (n : nat) (E : R -> mat) : Prop :=
  forall eps, (0 < eps)%R -> exists delta, (0 < delta)%R /\ forall t, (Rabs t < delta)%R ->
    forall h, (n1 n (mv n (E t) h) <= eps * n1 n h)%R.

Lemma msmall0_at0 n E : msmall0 n E -> forall h i, i < n -> mv n (E 0%R) h i = RtoC 0.
Proof.
  intros H h i Hi. apply Cmod_eq_0.
  destruct (Req_dec (Cmod (mv n (E 0%R) h i)) 0) as [E0|E0]; [exact E0|exfalso].
  assert (P := Cmod_ge_0 (mv n (E 0%R) h i)). assert (Q := n1_ge0 n h). set (c := Cmod (mv n (E 0%R) h i)) in *.
  destruct (H (c / (2 * (n1 n h + 1)))%R ltac:(apply Rdiv_lt_0_compat; lra)) as [d [Hd H']].
  specialize (H' 0%R ltac:(rewrite Rabs_R0; exact Hd) h). assert (B := n1_comp n (mv n (E 0%R) h) i Hi). fold c in B.
  assert (c / (2 * (n1 n h + 1)) * n1 n h <= c / (2 * (n1 n h + 1)) * (n1 n h + 1))%R
    by (apply Rmult_le_compat_l; [apply Rlt_le, Rdiv_lt_0_compat; lra|lra]).
  replace (c / (2 * (n1 n h + 1)) * (n1 n h + 1))%R with (c / 2)%R in H0 by (field; lra). lra.
Qed.

Lemma perturbed_solution_diff n A b (E : R -> mat) (r : vec) (X : R -> vec) delta0 :
  nonsingular n A -> msmall0 n E -> vdiff0 n (fun t => mv n (E t) (X 0%R)) r -> (0 < delta0)%R ->
  (forall t, (Rabs t < delta0)%R -> forall i, i < n -> (mv n A (X t) i + mv n (E t) (X t) i = b i)%C) ->
  exists x', (forall i, i < n -> mv n A x' i = - r i)%C /\ vdiff0 n (fun t => vminus (X t) (X 0%R)) x'.
Proof.
  intros HA HE Hr Hd0 HX. set (h := fun t => vminus (X t) (X 0%R)). set (x0 := X 0%R) in *.
  destruct (implicit_diff n A mzero (nonsingular_widely n A HA) h r) as [x' [H1 H2]].
  { intros eps He.
    destruct (Hr eps He) as [d1 [Hd1 Hd1']]. destruct (HE eps He) as [d2 [Hd2 Hd2']].
    exists (Rmin delta0 (Rmin d1 d2)). split; [repeat apply Rmin_glb_lt; assumption|].
    intros t Ht. assert (T0: (Rabs t < delta0)%R) by (eapply Rlt_le_trans; [exact Ht|apply Rmin_l]).
    assert (T12: (Rabs t < Rmin d1 d2)%R) by (eapply Rlt_le_trans; [exact Ht|apply Rmin_r]).
    assert (T1: (Rabs t < d1)%R) by (eapply Rlt_le_trans; [exact T12|apply Rmin_l]).
    assert (T2: (Rabs t < d2)%R) by (eapply Rlt_le_trans; [exact T12|apply Rmin_r]).
    specialize (Hd1' t T1). specialize (Hd2' t T2 (h t)).
    rewrite (n1_ext n _ (vplus (fun k => - (mv n (E t) x0 k - RtoC t * r k))%C (fun k => - (mv n (E t) (h t) k))%C)).
    - eapply Rle_trans; [apply n1_plus|].
      rewrite (n1_opp n (fun k => mv n (E t) x0 k - RtoC t * r k)%C), (n1_opp n (fun k => mv n (E t) (h t) k)).
      change (fun k => mv n (E t) (h t) k) with (mv n (E t) (h t)). lra.
    - intros i Hi. rewrite wl_zero. unfold vplus. unfold h. rewrite !mv_vminus. fold x0.
      assert (E1 := HX t T0 i Hi). assert (E0 := HX 0%R ltac:(rewrite Rabs_R0; exact Hd0) i Hi). fold x0 in E0.
      rewrite (msmall0_at0 n E HE x0 i Hi) in E0.
      replace (mv n A (X t) i) with (b i - mv n (E t) (X t) i)%C by (rewrite <- E1; ring).
      replace (mv n A x0 i) with (b i)%C by (rewrite <- E0; ring). ring. }
  exists x'. split; [|exact H2]. intros i Hi. rewrite <- (wl_zero n A x' i). exact (H1 i Hi).
Qed.

Lemma perturbed_nonsingular n A (E : R -> mat) : nonsingular n A -> msmall0 n E ->
  exists delta, (0 < delta)%R /\ forall t, (Rabs t < delta)%R -> nonsingular n (mplus A (E t)).
Proof.
  intros HA HE. destruct (widely_bound n A mzero (nonsingular_widely n A HA)) as [K [HK HB]].
  destruct (HE (1 / (2 * K))%R ltac:(apply Rdiv_lt_0_compat; lra)) as [dl [Hdl Hdl']]. exists dl. split; [assumption|].
  intros t Ht. specialize (Hdl' t Ht). apply injective_nonsingular. intros x Hx j Hj.
  assert (Q: (n1 n (wl n A mzero x) <= 1 / (2 * K) * n1 n x)%R).
  { rewrite (n1_ext n _ (fun k => - (mv n (E t) x k))%C).
    - rewrite (n1_opp n (mv n (E t) x)). apply Hdl'.
    - intros i Hi. rewrite wl_zero. specialize (Hx i Hi). rewrite mv_mplus in Hx.
      replace (mv n A x i) with ((mv n A x i + mv n (E t) x i) - mv n (E t) x i)%C by ring. rewrite Hx. ring. }
  assert (B := HB x). assert (P := n1_ge0 n x).
  assert (K * n1 n (wl n A mzero x) <= K * (1 / (2 * K) * n1 n x))%R by (apply Rmult_le_compat_l; lra).
  replace (K * (1 / (2 * K) * n1 n x))%R with (n1 n x / 2)%R in H by (field; lra).
  apply Cmod_eq_0. assert (Q1 := n1_comp n x j Hj). assert (Q2 := Cmod_ge_0 (x j)). lra.
Qed.

(** B diag(d) C *)
Definition sandwich (n : nat) (B : mat) (d : vec) (C : mat) : mat := mm n B (mm n (mdiag d) C).
Lemma mv_sandwich n B d C x i : mv n (sandwich n B d C) x i = mv n B (fun j => d j * mv n C x j)%C i.
Proof.
  unfold sandwich. rewrite mv_mm. apply mv_ext_v. intros j Hj. rewrite mv_mm, mv_diag by assumption. reflexivity.
Qed.
Lemma sandwich_small n B C (d : R -> vec) : vsmall0 n d -> msmall0 n (fun t => sandwich n B (d t) C).
Proof.
  intros Hd eps He. destruct (mv_bound n B) as [KB [HKB HB]]. destruct (mv_bound n C) as [KC [HKC HC]].
  assert (HP: (0 <= KB * KC)%R) by (apply Rmult_le_pos; assumption).
  destruct (Hd (eps / (KB * KC + 1))%R ltac:(apply Rdiv_lt_0_compat; lra)) as [dl [Hdl Hdl']].
  exists dl. split; [exact Hdl|]. intros t Ht h. specialize (Hdl' t Ht).
  rewrite (n1_ext n _ (mv n B (fun j => d t j * mv n C h j)%C)) by (intros i _; apply mv_sandwich).
  assert (B1 := HB (fun j => d t j * mv n C h j)%C). assert (B2 := n1_vmul n (d t) (mv n C h)). assert (B3 := HC h).
  assert (Q0 := n1_ge0 n (d t)). assert (Q1 := n1_ge0 n h). assert (Q2 := n1_ge0 n (mv n C h)).
  assert (S1: (n1 n (d t) * n1 n (mv n C h) <= eps / (KB * KC + 1) * (KC * n1 n h))%R) by (apply Rmult_le_compat; assumption).
  assert (S2: (KB * n1 n (fun k => d t k * mv n C h k)%C <= KB * (eps / (KB * KC + 1) * (KC * n1 n h)))%R).
  { apply Rmult_le_compat_l; [exact HKB|]. eapply Rle_trans; [exact B2|exact S1]. }
  eapply Rle_trans; [exact B1|]. eapply Rle_trans; [exact S2|].
  replace (KB * (eps / (KB * KC + 1) * (KC * n1 n h)))%R with (eps * n1 n h * (KB * KC / (KB * KC + 1)))%R by (field; lra).
  rewrite <- (Rmult_1_r (eps * n1 n h)) at 2. apply Rmult_le_compat_l; [apply Rmult_le_pos; lra|].
  apply (Rmult_le_reg_r (KB * KC + 1)); [lra|]. replace (KB * KC / (KB * KC + 1) * (KB * KC + 1))%R with (KB * KC)%R by (field; lra). lra.
Qed.
Lemma msmall0_plus n E F : msmall0 n E -> msmall0 n F -> msmall0 n (fun t => mplus (E t) (F t)).
Proof.
  intros H1 H2 eps He. destruct (H1 (eps / 2)%R ltac:(lra)) as [d1 [Hd1 H1']]. destruct (H2 (eps / 2)%R ltac:(lra)) as [d2 [Hd2 H2']].
  exists (Rmin d1 d2). split; [apply Rmin_glb_lt; assumption|]. intros t Ht h.
  specialize (H1' t ltac:(eapply Rlt_le_trans; [exact Ht|apply Rmin_l]) h). specialize (H2' t ltac:(eapply Rlt_le_trans; [exact Ht|apply Rmin_r]) h).
  rewrite (n1_ext n _ (vplus (mv n (E t) h) (mv n (F t) h))) by (intros i _; apply mv_mplus).
  eapply Rle_trans; [apply n1_plus|]. lra.
Qed.
Lemma vdiff0_plus n v w v' w' : vdiff0 n v v' -> vdiff0 n w w' -> vdiff0 n (fun t => vplus (v t) (w t)) (vplus v' w').
Proof.
  intros H1 H2 eps He. destruct (H1 (eps / 2)%R ltac:(lra)) as [d1 [Hd1 H1']]. destruct (H2 (eps / 2)%R ltac:(lra)) as [d2 [Hd2 H2']].
  exists (Rmin d1 d2). split; [apply Rmin_glb_lt; assumption|]. intros t Ht.
  specialize (H1' t ltac:(eapply Rlt_le_trans; [exact Ht|apply Rmin_l])). specialize (H2' t ltac:(eapply Rlt_le_trans; [exact Ht|apply Rmin_r])).
  rewrite (n1_ext n _ (vplus (fun k => v t k - RtoC t * v' k)%C (fun k => w t k - RtoC t * w' k)%C)) by (intros i _; unfold vplus; ring).
  eapply Rle_trans; [apply n1_plus|]. lra.
Qed.
Lemma vdiff0_mul n v v' (u : vec) : vdiff0 n v v' -> vdiff0 n (fun t k => v t k * u k)%C (fun k => v' k * u k)%C.
Proof.
  intros H eps He. assert (P := n1_ge0 n u).
  destruct (H (eps / (n1 n u + 1))%R ltac:(apply Rdiv_lt_0_compat; lra)) as [d [Hd H']]. exists d. split; [exact Hd|].
  intros t Ht. specialize (H' t Ht).
  rewrite (n1_ext n _ (fun k => (v t k - RtoC t * v' k) * u k)%C) by (intros i _; ring).
  eapply Rle_trans; [exact (n1_vmul n (fun k => v t k - RtoC t * v' k)%C u)|].
  apply Rle_trans with (eps / (n1 n u + 1) * Rabs t * (n1 n u + 1))%R.
  - apply Rmult_le_compat; [apply n1_ge0|lra|exact H'|lra].
  - right. field. lra.
Qed.

(* ------------------------------------------------------------------ *)
(** ** The Hz system as a function of the density *)

(** the pixel one step behind along an axis, and averages of real arrays *)
Definition behind (w : axis) (Nx Ny k : nat) : nat := roll1 w Nx Ny (fun i => i) k.
Definition average (w : axis) (Nx Ny : nat) (a : rvec) : rvec := fun k => ((a (behind w Nx Ny k) + a k) / 2)%R.
Lemma roll1_behind {T} w Nx Ny (a : nat -> T) k : roll1 w Nx Ny a k = a (behind w Nx Ny k).
Proof. unfold behind, roll1. destruct w; reflexivity. Qed.
Lemma behind_pix w Nx Ny i j : i < Nx -> j < Ny ->
  behind w Nx Ny (pix Ny i j) = match w with AxX => pix Ny (prev Nx i) j | AxY => pix Ny i (prev Ny j) end.
Proof. intros. unfold behind. rewrite roll1_pix by assumption. reflexivity. Qed.
Lemma behind_lt w Nx Ny k : k < Nx * Ny -> behind w Nx Ny k < Nx * Ny.
Proof.
  intro Hk. destruct (pix_bound Nx Ny k Hk) as (i & j & Hi & Hj & ->). rewrite behind_pix by assumption.
  destruct w; apply flat_lt; try assumption; apply prev_lt; assumption.
Qed.
Lemma average_pos w Nx Ny a k : (forall i, i < Nx * Ny -> (0 < a i)%R) -> k < Nx * Ny -> (0 < average w Nx Ny a k)%R.
Proof. intros H Hk. unfold average. assert (H1 := H _ (behind_lt w Nx Ny k Hk)). assert (H2 := H _ Hk). lra. Qed.
Lemma average_ext w Nx Ny a b k : (forall i, i < Nx * Ny -> a i = b i) -> k < Nx * Ny -> average w Nx Ny a k = average w Nx Ny b k.
Proof. intros H Hk. unfold average. rewrite (H _ (behind_lt w Nx Ny k Hk)), (H _ Hk). reflexivity. Qed.
Lemma eps_dir_average w L0 Nx Ny (a : rvec) k : eps_dir w true L0 Nx Ny (cvec a) k = RtoC (EPSILON_0 * L0 * average w Nx Ny a k).
Proof.
  unfold eps_dir, grid_average. rewrite (roll1_behind w Nx Ny (fun k => RtoC (EPSILON_0 * L0) * cvec a k)%C). unfold cvec, average.
  rewrite (RtoC_mult (EPSILON_0 * L0)), RtoC_div, RtoC_plus by lra. field. apply RtoC_neq0; lra.
Qed.
Lemma RtoC_inv_all x : RtoC (/ x) = (/ RtoC x)%C.
Proof.
  destruct (Req_dec x 0) as [->|H]; [|apply RtoC_inv; exact H]. rewrite Rinv_0. unfold Cinv, RtoC; cbn [fst snd]. f_equal; unfold Rdiv; ring.
Qed.

Definition inv_dir (w : axis) (s : sim) (a : rvec) : rvec := fun k => (/ (EPSILON_0 * s_L0 s * average w (s_Nx s) (s_Ny s) a k))%R.
Definition pert (s : sim) (a : rvec) : mat :=
  let M := s_M s in let D := s_derivs s in
  mplus (sandwich M (Dxf D) (fun j => RtoC (inv_dir AxX s a j - inv_dir AxX s (nd_buf (s_eps s)) j)) (Dxb D))
        (sandwich M (Dyf D) (fun j => RtoC (inv_dir AxY s a j - inv_dir AxY s (nd_buf (s_eps s)) j)) (Dyb D)).

Lemma with_density_A_Hz o s r : s_pol s = PolHz -> consistent s ->
  s_derivs (with_density o s r) = s_derivs s /\
  forall X k, k < s_M s -> mv (s_M s) (s_A (with_density o s r)) X k =
    (mv (s_M s) (s_A s) X k + mv (s_M s) (pert s (rho2eps (s_M s) r (o_eps_m o) (o_W o) (o_eta o) (o_beta o))) X k)%C.
Proof.
  intros Hpol HC. destruct (consistent_A s HC) as [EA ED]. split.
  - rewrite ED. unfold with_density, set_eps. cbn. rewrite Hpol. reflexivity.
  - intros X k Hk. unfold pert. cbv zeta. rewrite mv_mplus, !mv_sandwich. rewrite EA, ED, Hpol.
    change (s_A (with_density o s r)) with (fst (construct_A (s_omega s) (s_xrange s) (s_yrange s) (s_Nx s) (s_Ny s)
      (cvec (nd_buf (opt_eps o s r))) (s_NPML s) (s_pol s) (s_L0 s) true)).
    rewrite Hpol. assert (HZ := fun a => mv_construct_Hz (s_omega s) (s_L0 s) (s_Nx s) (s_Ny s) (s_NPML s) (s_xrange s) (s_yrange s) a true X k Hk).
    cbv zeta in HZ. fold (s_M s) in HZ. rewrite !HZ. cbn [opt_eps nd_buf].
    set (a := rho2eps _ _ _ _ _ _). unfold s_epsC. set (D := make_derivs _ _ _ _ _ _ _).
    assert (E: forall w (B : mat) (Y : vec), mv (s_M s) B (fun j => / eps_dir w true (s_L0 s) (s_Nx s) (s_Ny s) (cvec a) j * Y j)%C k =
      (mv (s_M s) B (fun j => / eps_dir w true (s_L0 s) (s_Nx s) (s_Ny s) (cvec (nd_buf (s_eps s))) j * Y j)%C k
       + mv (s_M s) B (fun j => RtoC (inv_dir w s a j - inv_dir w s (nd_buf (s_eps s)) j) * Y j)%C k)%C).
    { intros w B Y. rewrite <- mv_vplus. apply mv_ext_v. intros j Hj. unfold vplus. rewrite !eps_dir_average, RtoC_minus.
      unfold inv_dir. rewrite !RtoC_inv_all. ring. }
    rewrite (E AxX (Dxf D) (mv (s_M s) (Dxb D) X)), (E AxY (Dyf D) (mv (s_M s) (Dyb D) X)). ring.
Qed.

Lemma derive_mean (f g : R -> R) (a b c : R) : is_derive f 0%R a -> is_derive g 0%R b ->
  is_derive (fun t => c * ((f t + g t) / 2))%R 0%R (c * ((a + b) / 2))%R.
Proof.
  intros Hf Hg. apply (is_derive_ext (fun t => (c / 2) * (f t + g t))%R); [intro t; match goal with |- ?a = ?b => change (@eq R a b) end; field|].
  replace (c * ((a + b) / 2))%R with ((c / 2) * (a + b))%R by field.
  apply (is_derive_scal (fun t => f t + g t)%R 0%R (c / 2)%R (a + b)%R). apply (is_derive_plus (V := R_NormedModule) f g 0%R a b); assumption.
Qed.

(** derivative of the inverse averaged permittivity at pixel j along the direction a' *)
Definition inv_dir' (w : axis) (s : sim) (a' : rvec) : rvec := fun j =>
  (- (average w (s_Nx s) (s_Ny s) a' j / (EPSILON_0 * s_L0 s * average w (s_Nx s) (s_Ny s) (nd_buf (s_eps s)) j ^ 2)))%R.

Section HzDensity.
Variables (o : opt) (s : sim) (rho : rvec) (p : nat).
Hypothesis Hpol : s_pol s = PolHz.
Hypothesis HC : consistent s.
Hypothesis HL : (0 < s_L0 s)%R.
Hypothesis Heps : forall k, k < s_M s -> (0 < nd_buf (s_eps s) k)%R.
Hypothesis HP : proj_ok o.
Hypothesis HS : in_step o s rho.
Hypothesis Hp : p < s_M s.
Let epsat (t : R) : rvec := rho2eps (s_M s) (rho_at rho p t) (o_eps_m o) (o_W o) (o_eta o) (o_beta o).

Lemma epsat_0 k : k < s_M s -> epsat 0 k = nd_buf (s_eps s) k.
Proof. intro Hk. unfold epsat. rewrite rho2eps_at_0. symmetry. apply HS, Hk. Qed.
Lemma inv_dir_0 w k : k < s_M s -> inv_dir w s (epsat 0) k = inv_dir w s (nd_buf (s_eps s)) k.
Proof. intro Hk. unfold inv_dir. rewrite (average_ext w _ _ (epsat 0) (nd_buf (s_eps s))); [reflexivity|intros; apply epsat_0; assumption|exact Hk]. Qed.
Lemma inv_dir_derive w k : k < s_M s ->
  is_derive (fun t => inv_dir w s (epsat t) k) 0%R (inv_dir' w s (deps' o s rho p) k).
Proof.
  intro Hk. unfold inv_dir.
  assert (Q: (0 < average w (s_Nx s) (s_Ny s) (nd_buf (s_eps s)) k)%R) by (apply average_pos; assumption).
  assert (QE: average w (s_Nx s) (s_Ny s) (epsat 0) k = average w (s_Nx s) (s_Ny s) (nd_buf (s_eps s)) k)
    by (apply average_ext; [intros; apply epsat_0; assumption|exact Hk]).
  assert (E0 := EPSILON_0_pos).
  assert (D: forall i, is_derive (fun t => epsat t i) 0%R (deps' o s rho p i)).
  { intro i. unfold epsat. evar_last; [apply eps_at_derive; [exact Hp|exact HP]|]. unfold deps', projf. reflexivity. }
  evar_last.
  - apply (is_derive_inv (fun t => EPSILON_0 * s_L0 s * average w (s_Nx s) (s_Ny s) (epsat t) k)%R 0%R (EPSILON_0 * s_L0 s * average w (s_Nx s) (s_Ny s) (deps' o s rho p) k)%R).
    + unfold average. apply derive_mean; apply D.
    + rewrite QE. apply Rgt_not_eq. apply Rmult_lt_0_compat; [apply Rmult_lt_0_compat; assumption|exact Q].
  - cbv beta. rewrite QE. unfold inv_dir'. match goal with |- ?a = ?b => change (@eq R a b) end. field. repeat split; lra.
Qed.
Lemma inv_dir_diff w : vdiff0 (s_M s) (fun t j => RtoC (inv_dir w s (epsat t) j - inv_dir w s (nd_buf (s_eps s)) j))
  (fun j => RtoC (inv_dir' w s (deps' o s rho p) j)).
Proof.
  apply (vdiff0_ext _ (fun t j => RtoC (inv_dir w s (epsat t) j - inv_dir w s (epsat 0) j)) _ (fun j => RtoC (inv_dir' w s (deps' o s rho p) j))).
  - intros t j Hj. rewrite inv_dir_0 by exact Hj. reflexivity.
  - apply veq_refl.
  - apply (vdiff0_comp (s_M s) (fun j t => inv_dir w s (epsat t) j)). intros k Hk. apply inv_dir_derive, Hk.
Qed.
Lemma pert_small : msmall0 (s_M s) (fun t => pert s (epsat t)).
Proof. apply msmall0_plus; apply sandwich_small; eapply vdiff0_small, inv_dir_diff. Qed.
Lemma pert_diff X : vdiff0 (s_M s) (fun t => mv (s_M s) (pert s (epsat t)) X)
  (vplus (mv (s_M s) (Dxf (s_derivs s)) (fun j => RtoC (inv_dir' AxX s (deps' o s rho p) j) * mv (s_M s) (Dxb (s_derivs s)) X j)%C)
         (mv (s_M s) (Dyf (s_derivs s)) (fun j => RtoC (inv_dir' AxY s (deps' o s rho p) j) * mv (s_M s) (Dyb (s_derivs s)) X j)%C)).
Proof.
  eapply vdiff0_ext; [|apply veq_refl|apply vdiff0_plus; apply vdiff0_mv, vdiff0_mul, inv_dir_diff].
  intros t i Hi. unfold pert. cbv zeta beta. rewrite mv_mplus, !mv_sandwich. reflexivity.
Qed.
Lemma nonsingular_near_Hz : nonsingular (s_M s) (s_A s) ->
  exists d, (0 < d)%R /\ forall t, (Rabs t < d)%R -> nonsingular (s_M s) (s_A (with_density o s (rho_at rho p t))).
Proof.
  intro HN. destruct (perturbed_nonsingular (s_M s) (s_A s) _ HN pert_small) as (d & Hd & H). exists d. split; [exact Hd|].
  intros t Ht. eapply nonsingular_ext; [|apply (H t Ht)].
  apply meq_of_mv. intros X k Hk. rewrite mv_mplus. symmetry. apply (with_density_A_Hz o s (rho_at rho p t) Hpol HC); assumption.
Qed.
Lemma in_step_A_Hz : meq (s_M s) (s_A (with_density o s (rho_at rho p 0%R))) (s_A s).
Proof.
  apply meq_of_mv. intros X k Hk. destruct (with_density_A_Hz o s (rho_at rho p 0%R) Hpol HC) as (_ & H). rewrite H by assumption.
  rewrite (msmall0_at0 (s_M s) (fun t => pert s (epsat t)) pert_small X k Hk : mv (s_M s) (pert s (rho2eps _ (rho_at rho p 0%R) _ _ _ _)) X k = _). ring.
Qed.
End HzDensity.

(* ------------------------------------------------------------------ *)
(** ** Objectives of the linear Hz field *)
Definition Hz_lin : obj_arg := mkArg Hz false grad_linear_Hz.
Lemma solve_lin_Hz e o s J : o_current o = false -> o_objective o = set_J J [Hz_lin] -> s_pol s = PolHz ->
  nd_size (s_src s) = s_M s ->
  solve_arg_fields e (o, s) = ((upd_arglist [lin_solution e s] o, solved e s), Ok tt).
Proof.
  intros Hc Ho Hpol Hs. unfold solve_arg_fields, needs_solve. rewrite Hc. cbn [negb].
  destruct (solve_fields_lin e false s Hs) as [X [HX HE]]. cbv zeta in HE. rewrite HE.
  assert (HXs: lin_solution e s = X) by (unfold lin_solution; rewrite HX; reflexivity).
  unfold is_linear. rewrite Ho. cbn [set_J ob_args Hz_lin oa_nl forallb negb andb].
  assert (HS: upd_fields (store3 (s_pol s) (s_fields s) (fst (derived_fields s (s_epsC s) false X), snd (derived_fields s (s_epsC s) false X), X)) s = solved e s)
    by (unfold solved; rewrite HXs; reflexivity).
  rewrite HS. rewrite HXs. cbn [arg_fields Hz_lin oa_nl oa_comp].
  assert (HF: s_fields (solved e s) Hz = Some X) by (rewrite <- HS, Hpol; reflexivity). rewrite HF. reflexivity.
Qed.
Lemma compute_J_Hz e o s J : o_current o = false -> o_objective o = set_J J [Hz_lin] -> s_pol s = PolHz ->
  nd_size (s_src s) = s_M s -> pf_arity J = 1 ->
  compute_J e (o, s) = ((upd_arglist [lin_solution e s] o, solved e s), Ok (pf_val J [lin_solution e s])).
Proof.
  intros Hc Ho Hpol Hs HJ. unfold compute_J, bind. rewrite (solve_lin_Hz e o s J) by assumption.
  cbn [getS lift fst]. unfold lift. cbn [fst o_objective upd_arglist stored_args o_arglist]. rewrite Ho. cbn [set_J ob_J].
  unfold pf_call. cbn [List.length]. rewrite HJ. reflexivity.
Qed.

(** products of the difference of the field and the transposed difference of the adjoint
    field that the code uses *)
Definition code_pair (s : sim) (H lam : vec) (j : nat) : R :=
  Re (mv (s_M s) (Dyf (s_derivs s)) H j * mv (s_M s) (mT (Dyf (s_derivs s))) lam j
      + mv (s_M s) (Dxf (s_derivs s)) H j * mv (s_M s) (mT (Dxf (s_derivs s))) lam j)%C.

Lemma hz_gradient_code e o s rho J : solver_exact e -> s_pol s = PolHz -> physical s ->
  (forall k, k < s_M s -> (0 < nd_buf (s_eps s) k)%R) ->
  nd_size (s_src s) = s_M s -> nonsingular (s_M s) (s_A s) -> s_rho s = Val rho ->
  o_current o = false -> o_objective o = set_J J [Hz_lin] -> pf_arity J = 1 ->
  exists st1 g lam, compute_dJ e (o, s) = (st1, Ok g) /\
    solves (s_M s) (mT (s_A s)) lam (vneg (pf_grad J 0 [lin_solution e s])) /\
    forall p, g p = (- rsum (s_M s) (fun j => o_W o p j * o_design o j * projf o s rho j
       / (EPSILON_0 * s_L0 s * nd_buf (s_eps s) j ^ 2) * code_pair s (lin_solution e s) lam j))%R.
Proof.
  intros He Hpol Hphys Heps Hs HN Hrho Hc Ho HJ. unfold compute_dJ.
  rewrite (solve_lin_Hz e o s J) by assumption. cbn [o_objective upd_arglist]. rewrite Ho.
  cbn [set_J ob_grads ob_dJ ob_args List.map]. rewrite HJ.
  cbn [List.seq List.map List.combine grad_loop Hz_lin oa_gradient oa_nl run_grad].
  change (s_pol (solved e s)) with (s_pol s). rewrite Hpol. cbn [pol_comp].
  assert (HF: s_fields (solved e s) Hz = Some (lin_solution e s)) by (unfold solved; rewrite Hpol; reflexivity). rewrite HF.
  unfold g_linear_Hz. cbn [stored_args upd_arglist o_arglist]. unfold pf_dcall. cbn [List.length]. rewrite HJ. cbn [Nat.eqb rbind].
  unfold adjoint_linear_Hz. change (s_M (solved e s)) with (s_M s). change (s_A (solved e s)) with (s_A s).
  destruct (solver_direct_default_ok e (s_M s) (mT (s_A s)) (vneg (pf_grad J 0 [lin_solution e s]))) as [aj Haj]. rewrite Haj. cbn [rbind fst snd].
  unfold get_rho. change (s_rho (solved e s)) with (s_rho s). rewrite Hrho. cbn [rbind].
  do 2 eexists. exists aj. split; [reflexivity|].
  split; [exact (solver_direct_correct _ _ _ _ _ _ He (nonsingular_mT _ _ HN) Haj)|].
  intro p. cbv beta. rewrite Rplus_0_l. rewrite Re_plus. unfold sensitivity. rewrite !Re_csum, <- rsum_plus, <- rsum_opp.
  apply rsum_ext. intros j Hj. cbn [o_W o_eps_m o_eta o_beta upd_arglist].
  change (s_omega (solved e s)) with (s_omega s). change (s_L0 (solved e s)) with (s_L0 s). change (s_derivs (solved e s)) with (s_derivs s).
  change (s_epsC (solved e s)) with (s_epsC s).
  unfold vscal. rewrite !mv_mm. unfold spdiags. rewrite !mv_diag by exact Hj.
  unfold dAdeps_lin, projf, code_pair. cbn [o_design upd_arglist]. change (s_omega (solved e s)) with (s_omega s). change (s_L0 (solved e s)) with (s_L0 s).
  unfold s_epsC, cvec. set (X := lin_solution e s).
  destruct Hphys as (HL & Hom & _). assert (E0 := EPSILON_0_pos). specialize (Heps j Hj).
  set (pr := drhob_drhot _ _ _). set (ep := nd_buf (s_eps s) j) in *.
  set (y1 := mv (s_M s) (Dyf (s_derivs s)) X j). set (y2 := mv (s_M s) (mT (Dyf (s_derivs s))) aj j).
  set (x1 := mv (s_M s) (Dxf (s_derivs s)) X j). set (x2 := mv (s_M s) (mT (Dxf (s_derivs s))) aj j).
  rewrite <- Re_plus.
  rewrite <- (Ropp_mult_distr_l_reverse (_ / _)) || idtac.
  transitivity (Re (RtoC (- (o_W o p j * o_design o j * ((o_eps_m o - 1) * pr) / (EPSILON_0 * s_L0 s * ep ^ 2))) * (y1 * y2 + x1 * x2))%C).
  2:{ rewrite Re_RtoC_mult. ring. }
  f_equal.
  assert (HoC: RtoC (s_omega s) <> RtoC 0) by (apply RtoC_neq0; lra).
  assert (HeC: RtoC (EPSILON_0 * s_L0 s * ep) <> RtoC 0) by (apply RtoC_neq0, Rgt_not_eq; apply Rmult_lt_0_compat; [apply Rmult_lt_0_compat; assumption|exact Heps]).
  assert (Hvc: (RtoC (EPSILON_0 * s_L0 s) * RtoC ep)%C = RtoC (EPSILON_0 * s_L0 s * ep)) by (rewrite (RtoC_mult (EPSILON_0 * s_L0 s)); reflexivity).
  rewrite Hvc.
  replace (RtoC (- (o_W o p j * o_design o j * ((o_eps_m o - 1) * pr) / (EPSILON_0 * s_L0 s * ep ^ 2))))
    with (- (RtoC (o_W o p j) * RtoC (o_design o j) * RtoC (o_eps_m o - 1) * RtoC pr * RtoC (EPSILON_0 * s_L0 s) / (RtoC (EPSILON_0 * s_L0 s * ep) * RtoC (EPSILON_0 * s_L0 s * ep))))%C.
  2:{ rewrite <- !RtoC_mult, <- RtoC_div, <- RtoC_opp; [f_equal; field; repeat split; lra|].
      apply Rgt_not_eq. repeat (apply Rmult_lt_0_compat; try assumption). }
  set (ve := RtoC (EPSILON_0 * s_L0 s * ep)) in *.
  replace (RtoC (o_design o j * s_omega s ^ 2 * (EPSILON_0 * s_L0 s))) with (RtoC (o_design o j) * (RtoC (s_omega s) * RtoC (s_omega s)) * RtoC (EPSILON_0 * s_L0 s))%C
    by (rewrite <- !RtoC_mult; f_equal; ring).
  set (om := RtoC (s_omega s)) in *.
  set (k := RtoC (EPSILON_0 * s_L0 s)).
  assert (HI: (RtoC 1 / Ci / om * (RtoC 1 / Ci / om) = - (RtoC 1 / (om * om)))%C).
  { assert (H2: (RtoC 1 / Ci * (RtoC 1 / Ci))%C = (- RtoC 1)%C).
    { unfold Cdiv, Cinv, Cmult, Copp, Ci, RtoC; cbn [fst snd]. f_equal; field. }
    transitivity ((RtoC 1 / Ci * (RtoC 1 / Ci)) / (om * om))%C; [field; split; first [exact HoC|apply Ci_neq0]|].
    rewrite H2. field. exact HoC. }
  transitivity ((RtoC (o_W o p j) * RtoC (o_design o j) * RtoC (o_eps_m o - 1) * RtoC pr * k / (ve * ve)) * (om * om) * (RtoC 1 / Ci / om * (RtoC 1 / Ci / om)) * (y1 * y2 + x1 * x2))%C.
  - field. repeat split; first [apply Ci_neq0|exact HoC|exact HeC].
  - rewrite HI. field. split; assumption.
Qed.

Lemma hz_gradient_true e o s rho J lam p : solver_exact e -> s_pol s = PolHz -> consistent s -> physical s ->
  (forall k, k < s_M s -> (0 < nd_buf (s_eps s) k)%R) ->
  nd_size (s_src s) = s_M s -> nonsingular (s_M s) (s_A s) -> s_rho s = Val rho -> proj_ok o -> in_step o s rho ->
  o_current o = false -> o_objective o = set_J J [Hz_lin] -> pf_arity J = 1 ->
  differentiable_at_fields e o s J ->
  solves (s_M s) (mT (s_A s)) lam (vneg (pf_grad J 0 [lin_solution e s])) -> p < s_M s ->
  exists Jt, objective_of_pixel e o s rho p Jt /\
  is_derive Jt 0%R (rsum (s_M s) (fun j =>
    inv_dir' AxX s (deps' o s rho p) j * Re (mv (s_M s) (mT (Dxf (s_derivs s))) lam j * mv (s_M s) (Dxb (s_derivs s)) (lin_solution e s) j)%C
    + inv_dir' AxY s (deps' o s rho p) j * Re (mv (s_M s) (mT (Dyf (s_derivs s))) lam j * mv (s_M s) (Dyb (s_derivs s)) (lin_solution e s) j)%C))%R.
Proof.
  intros He Hpol HC Hphys Heps Hs HN Hrho HP HS Hc Ho HJ HG Hlam Hp.
  destruct Hphys as (HL & _).
  set (st := fun t => with_density o s (rho_at rho p t)).
  set (X := fun t => lin_solution e (st t)).
  exists (fun t => pf_val J [X t]). split.
  { intro t. eexists. exact (compute_J_Hz e o (st t) J Hc Ho Hpol Hs HJ). }
  destruct (nonsingular_near_Hz o s rho p Hpol HC HL Heps HP HS Hp HN) as (d & Hd & Hd').
  assert (HX: forall t, (Rabs t < d)%R -> solves (s_M s) (s_A (st t)) (X t) (rhs s)) by (intros t Ht; apply (lin_solution_solves e (st t) He (Hd' t Ht))).
  assert (HX0: veq (s_M s) (X 0%R) (lin_solution e s)).
  { apply (solves_unique (s_M s) (s_A s) _ _ (rhs s) HN); [|apply lin_solution_solves; assumption].
    eapply solves_ext; [apply (in_step_A_Hz o s rho p Hpol HC HL Heps HP HS Hp)|apply veq_refl|].
    apply HX. rewrite Rabs_R0. exact Hd. }
  destruct (perturbed_solution_diff (s_M s) (s_A s) (rhs s)
     (fun t => pert s (rho2eps (s_M s) (rho_at rho p t) (o_eps_m o) (o_W o) (o_eta o) (o_beta o))) _ X d HN
     (pert_small o s rho p HL Heps HP HS Hp) (pert_diff o s rho p HL Heps HP HS Hp (X 0%R)) Hd) as (x' & H1 & H2).
  { intros t Ht i Hi. rewrite <- (HX t Ht i Hi). symmetry. apply (with_density_A_Hz o s (rho_at rho p t) Hpol HC). exact Hi. }
  assert (HJ0 := compute_J_Hz e o s J Hc Ho Hpol Hs HJ). specialize (HG _ _ HJ0). cbn [fst stored_args upd_arglist o_arglist] in HG.
  evar_last.
  { apply (objective_derive (s_M s) (pf_val J) [lin_solution e s] (fun i => pf_grad J i [lin_solution e s]) (fun t => [X t]) (fun _ => x')).
    - exact HG.
    - reflexivity.
    - intros i Hi. cbn in Hi. replace i with 0 by lia. cbn [List.nth].
      eapply vdiff0_ext; [|apply veq_refl|exact H2]. intros t k Hk. unfold vminus. rewrite (HX0 k Hk). reflexivity. }
  cbn [List.length rsum]. rewrite Rplus_0_l.
  set (g := pf_grad J 0 [lin_solution e s]) in *.
  set (M := s_M s) in *. set (D := s_derivs s) in *.
  transitivity (- Re (dot M (mv M (mT (s_A s)) lam) x'))%R.
  { unfold dot. rewrite !Re_csum, <- rsum_opp. apply rsum_ext. intros k Hk. rewrite <- Re_opp. f_equal.
    assert (E := Hlam k Hk). change (mv M (mT (s_A s)) lam k = vneg g k) in E. rewrite E. unfold vneg. ring. }
  rewrite <- dot_mT.
  transitivity (Re (dot M lam (vplus (mv M (Dxf D) (fun j => RtoC (inv_dir' AxX s (deps' o s rho p) j) * mv M (Dxb D) (lin_solution e s) j)%C)
         (mv M (Dyf D) (fun j => RtoC (inv_dir' AxY s (deps' o s rho p) j) * mv M (Dyb D) (lin_solution e s) j)%C)))).
  { rewrite <- Re_opp. f_equal. unfold dot. rewrite <- csum_opp. apply csum_ext. intros k Hk. rewrite (H1 k Hk). unfold vplus.
    assert (E: forall w (B : mat) (C0 : mat), mv M B (fun j => RtoC (inv_dir' w s (deps' o s rho p) j) * mv M C0 (X 0%R) j)%C k
       = mv M B (fun j => RtoC (inv_dir' w s (deps' o s rho p) j) * mv M C0 (lin_solution e s) j)%C k).
    { intros w B C0. apply mv_ext_v. intros j Hj. rewrite (mv_ext_v M C0 (X 0%R) (lin_solution e s)); [reflexivity|exact HX0]. }
    rewrite !E. ring. }
  rewrite dot_vplus_r, !dot_mT, Re_plus. unfold dot. rewrite !Re_csum, <- rsum_plus. apply rsum_ext. intros j Hj.
  rewrite <- !Re_RtoC_mult. f_equal; f_equal; ring.
Qed.

(* ------------------------------------------------------------------ *)
(** * C39 *)

(** The full property. *)
Definition Hz_arg_name (c : string) : Prop := (c = "Hz" \/ c = "Ex" \/ c = "Ey")%string.
Definition C39_property : Prop :=
  forall e o s rho J args ob,
  solver_exact e ->
  s_pol s = PolHz -> consistent s -> physical s -> (forall k, k < s_M s -> (0 < nd_buf (s_eps s) k)%R) ->
  nd_size (s_src s) = s_M s -> nonsingular (s_M s) (s_A s) ->
  s_rho s = Val rho -> in_step o s rho ->
  Objective J args = Ok ob -> o_objective o = ob ->
  (forall a, In a args -> exists c, Hz_arg_name c /\ new_obj_arg c false = Ok a) ->
  o_W o = rId -> o_current o = false -> (0 < o_beta o)%R -> (0 <= o_eta o <= 1)%R ->
  differentiable_at_fields e o s J ->
  exists st1 g, compute_dJ e (o, s) = (st1, Ok g) /\
  forall p, p < s_M s -> o_design o p = 1%R -> exists Jt, objective_of_pixel e o s rho p Jt /\ is_derive Jt 0%R (g p).

(** Both sides, for every unfiltered objective of the Hz field: compute_dJ succeeds and
    its value at a design pixel uses the forward differences of the field and the
    permittivity of that pixel only; the derivative of the objective uses the backward
    differences, at this pixel and the next ones, and the averaged permittivities.  (What
    is missing for the full property: equality of the two, which is false.) *)
Theorem C39_hz_gradient_and_derivative_partial : forall e o s rho J a ob,
  solver_exact e ->
  s_pol s = PolHz -> consistent s -> physical s -> (forall k, k < s_M s -> (0 < nd_buf (s_eps s) k)%R) ->
  nd_size (s_src s) = s_M s -> nonsingular (s_M s) (s_A s) ->
  s_rho s = Val rho -> in_step o s rho ->
  new_obj_arg "Hz" false = Ok a -> Objective J [a] = Ok ob -> o_objective o = ob ->
  o_W o = rId -> o_current o = false -> (0 < o_beta o)%R -> (0 <= o_eta o <= 1)%R ->
  differentiable_at_fields e o s J ->
  let M := s_M s in let D := s_derivs s in let H := lin_solution e s in let eps := nd_buf (s_eps s) in
  let scale p := (projf o s rho p / (EPSILON_0 * s_L0 s))%R in
  exists st1 g lam, compute_dJ e (o, s) = (st1, Ok g) /\
    solves M (mT (s_A s)) lam (fun k => - pf_grad J 0 [H] k)%C /\
    forall p, p < M ->
      g p = (- (scale p * o_design o p / eps p ^ 2
             * Re (mv M (Dxf D) H p * mv M (mT (Dxf D)) lam p + mv M (Dyf D) H p * mv M (mT (Dyf D)) lam p)%C))%R /\
      exists Jt, objective_of_pixel e o s rho p Jt /\
        is_derive Jt 0%R (- (scale p * (
          rsum M (fun j => average AxX (s_Nx s) (s_Ny s) (rId p) j / average AxX (s_Nx s) (s_Ny s) eps j ^ 2
                           * Re (mv M (Dxb D) H j * mv M (mT (Dxf D)) lam j)%C)
          + rsum M (fun j => average AxY (s_Nx s) (s_Ny s) (rId p) j / average AxY (s_Nx s) (s_Ny s) eps j ^ 2
                           * Re (mv M (Dyb D) H j * mv M (mT (Dyf D)) lam j)%C))))%R.
Proof.
  intros e o s rho J a ob He Hpol HC HPh Heps Hs HN Hrho HS Ha Hob Ho HW Hc Hb Het HG M D H eps scale.
  unfold new_obj_arg in Ha. cbn in Ha. injection Ha as <-. destruct (Objective_ok _ _ _ Hob) as [-> HL]. cbn in HL.
  assert (HP: proj_ok o) by (apply Rgt_not_eq, proj_den; assumption).
  destruct (hz_gradient_code e o s rho J He Hpol HPh Heps Hs HN Hrho Hc Ho (eq_sym HL)) as (st1 & g & lam & H1 & H2 & H3).
  exists st1, g, lam. split; [exact H1|]. split; [exact H2|]. intros p Hp.
  assert (E0 := EPSILON_0_pos). assert (HL0: (0 < s_L0 s)%R) by apply HPh.
  split.
  - rewrite H3, HW. f_equal. rewrite (rsum_single (s_M s) p); [|exact Hp|].
    + unfold rId. rewrite Nat.eqb_refl. unfold scale, code_pair. fold M D H.
      rewrite (Cplus_comm (mv M (Dyf D) H p * _)%C). fold eps. assert (E1 := Heps p Hp). fold eps in E1. field. repeat split; lra.
    + intros k _ Hk. unfold rId. destruct (Nat.eqb_spec p k); [subst; contradiction|]. unfold Rdiv. ring.
  - destruct (hz_gradient_true e o s rho J lam p He Hpol HC HPh Heps Hs HN Hrho HP HS Hc Ho (eq_sym HL) HG H2 Hp) as (Jt & T1 & T2).
    exists Jt. split; [exact T1|]. evar_last; [exact T2|]. fold M D H.
    rewrite <- rsum_plus, <- rsum_scal, <- rsum_opp. apply rsum_ext. intros j Hj.
    assert (AV: forall w, inv_dir' w s (deps' o s rho p) j = (- (scale p * (average w (s_Nx s) (s_Ny s) (rId p) j / average w (s_Nx s) (s_Ny s) eps j ^ 2)))%R).
    { intro w. unfold inv_dir', scale. fold eps. assert (Q := average_pos w (s_Nx s) (s_Ny s) eps j Heps Hj).
      replace (average w (s_Nx s) (s_Ny s) (deps' o s rho p) j) with (projf o s rho p * average w (s_Nx s) (s_Ny s) (rId p) j)%R.
      - field. repeat split; lra.
      - unfold average, deps', rId. rewrite HW. unfold rId.
        destruct (Nat.eqb_spec p (behind w (s_Nx s) (s_Ny s) j)) as [<-|N1], (Nat.eqb_spec p j) as [<-|N2];
          rewrite ?Nat.eqb_refl; rewrite ?(proj2 (Nat.eqb_neq _ _)) by congruence; field. }
    rewrite !AV. rewrite (Cmult_comm (mv M (mT (Dxf D)) lam j)), (Cmult_comm (mv M (mT (Dyf D)) lam j)). ring.
Qed.

(** ** Grids of two by two pixels *)
Definition opposite (i : nat) : nat := 1 - i.
Lemma next2 i : i < 2 -> next 2 i = opposite i.
Proof. intro H. destruct i as [|[|]]; [reflexivity|reflexivity|lia]. Qed.
Lemma prev2 i : i < 2 -> prev 2 i = opposite i.
Proof. intro H. destruct i as [|[|]]; [reflexivity|reflexivity|lia]. Qed.
Lemma mT_symm_mv n (A : mat) v : (forall i j, i < n -> j < n -> A i j = A j i) -> forall k, k < n -> mv n (mT A) v k = mv n A v k.
Proof. intros H k Hk. unfold mv, mT. apply csum_ext. intros j Hj. rewrite H by assumption. reflexivity. Qed.

Lemma two_ops s : consistent s -> physical s -> s_Nx s = 2 -> s_Ny s = 2 -> s_NPML s = (0, 0) ->
  exists dx dy, (0 < dx)%R /\ (0 < dy)%R /\ forall v i j, i < 2 -> j < 2 ->
    let D := s_derivs s in
    mv 4 (Dxf D) v (pix 2 i j) = ((v (pix 2 (opposite i) j) - v (pix 2 i j)) / RtoC dx)%C /\
    mv 4 (Dxb D) v (pix 2 i j) = (- ((v (pix 2 (opposite i) j) - v (pix 2 i j)) / RtoC dx))%C /\
    mv 4 (mT (Dxf D)) v (pix 2 i j) = ((v (pix 2 (opposite i) j) - v (pix 2 i j)) / RtoC dx)%C /\
    mv 4 (Dyf D) v (pix 2 i j) = ((v (pix 2 i (opposite j)) - v (pix 2 i j)) / RtoC dy)%C /\
    mv 4 (Dyb D) v (pix 2 i j) = (- ((v (pix 2 i (opposite j)) - v (pix 2 i j)) / RtoC dy))%C /\
    mv 4 (mT (Dyf D)) v (pix 2 i j) = ((v (pix 2 i (opposite j)) - v (pix 2 i j)) / RtoC dy)%C.
Proof.
  intros HC HPh HNx HNy HNP. destruct (consistent_A s HC) as [_ ED]. destruct HPh as (_ & _ & Hx & Hy & _).
  exists (fst (dL 2 2 (s_xrange s) (s_yrange s))), (snd (dL 2 2 (s_xrange s) (s_yrange s))). unfold dL. cbn [fst snd INR].
  assert (P1: (0 < (snd (s_xrange s) - fst (s_xrange s)) / (1 + 1))%R) by lra.
  assert (P2: (0 < (snd (s_yrange s) - fst (s_yrange s)) / (1 + 1))%R) by lra.
  split; [exact P1|]. split; [exact P2|]. intros v i j Hi Hj. set (D := s_derivs s).
  assert (ED': D = make_derivs (s_omega s) (s_L0 s) 2 2 (0, 0) (s_xrange s) (s_yrange s)) by (unfold D; rewrite ED, HNx, HNy, HNP; reflexivity).
  set (dx := ((snd (s_xrange s) - fst (s_xrange s)) / (1 + 1))%R) in *. set (dy := ((snd (s_yrange s) - fst (s_yrange s)) / (1 + 1))%R) in *.
  assert (ND: forall (w : axis) (sd : side) u r, r < 4 -> mv 4 (make_deriv w sd (s_omega s) (s_L0 s) 2 2 (0, 0) (s_xrange s) (s_yrange s)) u r = mv 4 (createDws w sd dx dy 2 2) u r).
  { intros w sd u r Hr. exact (make_deriv_no_pml w sd (s_omega s) (s_L0 s) 2 2 (s_xrange s) (s_yrange s) u r Hr). }
  assert (Hk: forall i j, i < 2 -> j < 2 -> pix 2 i j < 4) by (intros; unfold pix; lia).
  assert (XF: forall u i j, i < 2 -> j < 2 -> mv 4 (Dxf D) u (pix 2 i j) = ((u (pix 2 (opposite i) j) - u (pix 2 i j)) / RtoC dx)%C).
  { intros u i0 j0 Hi0 Hj0. rewrite ED'. cbn [make_derivs Dxf]. rewrite ND by auto.
    change 4 with (2 * 2). rewrite Dxf_stencil by (auto; lra). unfold diff_xf. rewrite next2 by assumption. reflexivity. }
  assert (YF: forall u i j, i < 2 -> j < 2 -> mv 4 (Dyf D) u (pix 2 i j) = ((u (pix 2 i (opposite j)) - u (pix 2 i j)) / RtoC dy)%C).
  { intros u i0 j0 Hi0 Hj0. rewrite ED'. cbn [make_derivs Dyf]. rewrite ND by auto.
    change 4 with (2 * 2). rewrite Dyf_stencil by (auto; lra). unfold diff_yf. rewrite next2 by assumption. reflexivity. }
  assert (UN: forall (A : mat) a c, c < 4 -> A a c = mv 4 A (fun k => if Nat.eqb k c then RtoC 1 else RtoC 0) a).
  { intros A a c Hc. unfold mv. rewrite (csum_single 4 c); [rewrite Nat.eqb_refl; ring|exact Hc|].
    intros k _ Hkc. destruct (Nat.eqb_spec k c); [contradiction|ring]. }
  assert (SX: forall a c, a < 4 -> c < 4 -> Dxf D a c = Dxf D c a).
  { intros a c Ha0 Hc0. rewrite (UN (Dxf D) a c Hc0), (UN (Dxf D) c a Ha0).
    destruct (pix_bound 2 2 a Ha0) as (a1 & a2 & A1 & A2 & ->). destruct (pix_bound 2 2 c Hc0) as (c1 & c2 & C1 & C2 & ->).
    rewrite !XF by assumption. destruct a1 as [|[|]]; [| |lia]; destruct a2 as [|[|]]; [| |lia| | |lia];
      destruct c1 as [|[|]]; try lia; destruct c2 as [|[|]]; try lia; cbn; reflexivity || (unfold Cdiv; ring). }
  assert (SY: forall a c, a < 4 -> c < 4 -> Dyf D a c = Dyf D c a).
  { intros a c Ha0 Hc0. rewrite (UN (Dyf D) a c Hc0), (UN (Dyf D) c a Ha0).
    destruct (pix_bound 2 2 a Ha0) as (a1 & a2 & A1 & A2 & ->). destruct (pix_bound 2 2 c Hc0) as (c1 & c2 & C1 & C2 & ->).
    rewrite !YF by assumption. destruct a1 as [|[|]]; [| |lia]; destruct a2 as [|[|]]; [| |lia| | |lia];
      destruct c1 as [|[|]]; try lia; destruct c2 as [|[|]]; try lia; cbn; reflexivity || (unfold Cdiv; ring). }
  split; [apply XF; assumption|]. split; [|split; [|split; [apply YF; assumption|split]]].
  - rewrite ED'. cbn [make_derivs Dxb]. rewrite ND by auto. change 4 with (2 * 2). rewrite Dxb_stencil by (auto; lra).
    unfold diff_xb. rewrite prev2 by assumption. unfold Cdiv. ring.
  - rewrite (mT_symm_mv 4 (Dxf D) v SX) by auto. apply XF; assumption.
  - rewrite ED'. cbn [make_derivs Dyb]. rewrite ND by auto. change 4 with (2 * 2). rewrite Dyb_stencil by (auto; lra).
    unfold diff_yb. rewrite prev2 by assumption. unfold Cdiv. ring.
  - rewrite (mT_symm_mv 4 (Dyf D) v SY) by auto. apply YF; assumption.
Qed.

(** On a 2 x 2 grid without PML and with a uniform permittivity the gradient has the wrong
    sign at every design pixel. *)
Theorem C39_two_by_two_wrong_sign : forall e o s rho J a ob c,
  solver_exact e ->
  s_pol s = PolHz -> consistent s -> physical s ->
  s_Nx s = 2 -> s_Ny s = 2 -> s_NPML s = (0, 0) -> (0 < c)%R -> (forall k, k < 4 -> nd_buf (s_eps s) k = c) ->
  nd_size (s_src s) = s_M s -> nonsingular (s_M s) (s_A s) ->
  s_rho s = Val rho -> in_step o s rho ->
  new_obj_arg "Hz" false = Ok a -> Objective J [a] = Ok ob -> o_objective o = ob ->
  o_W o = rId -> o_current o = false -> (0 < o_beta o)%R -> (0 <= o_eta o <= 1)%R ->
  differentiable_at_fields e o s J ->
  exists st1 g, compute_dJ e (o, s) = (st1, Ok g) /\
  forall p, p < 4 -> o_design o p = 1%R ->
    exists Jt, objective_of_pixel e o s rho p Jt /\ is_derive Jt 0%R (- g p)%R.
Proof.
  intros e o s rho J a ob c He Hpol HC HPh HNx HNy HNP Hc0 Hc Hs HN Hrho HS Ha Hob Ho HW Hcur Hb Het HG.
  assert (HM: s_M s = 4) by (unfold s_M; rewrite HNx, HNy; reflexivity).
  assert (Heps: forall k, k < s_M s -> (0 < nd_buf (s_eps s) k)%R) by (intros k Hk; rewrite HM in Hk; rewrite Hc by exact Hk; exact Hc0).
  destruct (C39_hz_gradient_and_derivative_partial e o s rho J a ob He Hpol HC HPh Heps Hs HN Hrho HS Ha Hob Ho HW Hcur Hb Het HG)
    as (st1 & g & lam & H1 & _ & H3). exists st1, g. split; [exact H1|]. intros p Hp Hd.
  rewrite HM in H3. destruct (H3 p Hp) as (G & Jt & T1 & T2). exists Jt. split; [exact T1|]. evar_last; [exact T2|].
  rewrite G, Hd. rewrite HNx, HNy. clear G T1 T2 H3.
  destruct (two_ops s HC HPh HNx HNy HNP) as (dx & dy & Hdx & Hdy & OP). cbv zeta in OP.
  set (H := lin_solution e s). set (D := s_derivs s) in *. set (eps := nd_buf (s_eps s)) in *.
  assert (AV: forall w k, k < 4 -> average w 2 2 eps k = c).
  { intros w k Hk. unfold average. rewrite (Hc k Hk), (Hc _ (behind_lt w 2 2 k Hk)). field. }
  rewrite (Hc p Hp).
  assert (R: forall w (f : nat -> R), rsum 4 (fun j => average w 2 2 (rId p) j / average w 2 2 eps j ^ 2 * f j)%R
     = ((f (behind w 2 2 p) + f p) / 2 / c ^ 2)%R).
  { intros w f. rewrite (rsum_ext 4 _ (fun j => average w 2 2 (rId p) j * f j / c ^ 2)%R) by (intros j Hj; rewrite (AV w j Hj); unfold Rdiv; ring).
    cbn [rsum]. unfold average, behind, roll1, rId. 
    destruct w, p as [|[|[|[|]]]]; try lia; cbn [Nat.div Nat.divmod Nat.modulo Nat.add Nat.sub Nat.mul Nat.eqb fst snd]; field; lra. }
  rewrite (R AxX (fun j => Re (mv 4 (Dxb D) H j * mv 4 (mT (Dxf D)) lam j)%C)), (R AxY (fun j => Re (mv 4 (Dyb D) H j * mv 4 (mT (Dyf D)) lam j)%C)).
  destruct (pix_bound 2 2 p Hp) as (i & j & Hi & Hj & ->).
  rewrite !behind_pix by assumption. rewrite !prev2 by assumption.
  assert (Hi': opposite i < 2) by (unfold opposite; lia). assert (Hj': opposite j < 2) by (unfold opposite; lia).
  assert (OO: forall i, i < 2 -> opposite (opposite i) = i) by (intros; unfold opposite; lia).
  destruct (OP H i j Hi Hj) as (A1 & A2 & _ & A4 & A5 & _). destruct (OP lam i j Hi Hj) as (_ & _ & B3 & _ & _ & B6).
  destruct (OP H (opposite i) j Hi' Hj) as (_ & C2 & _). destruct (OP lam (opposite i) j Hi' Hj) as (_ & _ & D3 & _).
  destruct (OP H i (opposite j) Hi Hj') as (_ & _ & _ & _ & C5 & _). destruct (OP lam i (opposite j) Hi Hj') as (_ & _ & _ & _ & _ & D6).
  rewrite OO in C2, D3 by assumption. rewrite OO in C5, D6 by assumption.
  set (x1 := ((H (pix 2 (opposite i) j) - H (pix 2 i j)) / RtoC dx)%C) in *.
  set (x2 := ((lam (pix 2 (opposite i) j) - lam (pix 2 i j)) / RtoC dx)%C) in *.
  set (y1 := ((H (pix 2 i (opposite j)) - H (pix 2 i j)) / RtoC dy)%C) in *.
  set (y2 := ((lam (pix 2 i (opposite j)) - lam (pix 2 i j)) / RtoC dy)%C) in *.
  assert (C2': mv 4 (Dxb D) H (pix 2 (opposite i) j) = x1) by (rewrite C2; unfold x1, Cdiv; ring).
  assert (C5': mv 4 (Dyb D) H (pix 2 i (opposite j)) = y1) by (rewrite C5; unfold y1, Cdiv; ring).
  assert (D3': mv 4 (mT (Dxf D)) lam (pix 2 (opposite i) j) = (- x2)%C) by (rewrite D3; unfold x2, Cdiv; ring).
  assert (D6': mv 4 (mT (Dyf D)) lam (pix 2 i (opposite j)) = (- y2)%C) by (rewrite D6; unfold y2, Cdiv; ring).
  rewrite A1, A2, A4, A5, B3, B6, C2', C5', D3', D6'.
  assert (E0 := EPSILON_0_pos). destruct HPh as (P1 & _). autorewrite with reim. field. repeat split; lra.
Qed.

(** A concrete case: 2 x 2 pixels, empty structure, a source that makes Hz equal to 1 in the
    first column and 0 in the second, and a linear objective whose adjoint field is the same. *)
Definition hz_field : vec := fun k => if Nat.ltb k 2 then RtoC 1 else RtoC 0.
Definition hz_opt (ob : objective) : opt := mkOpt ob (fun _ => 1%R) rId (1 / 2) 10 5 "linear" "hybrid" None [] [] false None.
Lemma hz_facts s0 ob src : fam_sim "Hz" 2 2 0 0 (fun _ => 1%R) = Ok s0 ->
  let o := hz_opt ob in let s := with_density o (upd_src (mkNd 2 2 src) s0) (fun _ => 0%R) in
  s_pol s = PolHz /\ consistent s /\ physical s /\ s_Nx s = 2 /\ s_Ny s = 2 /\ s_NPML s = (0, 0) /\
  (forall k, k < 4 -> nd_buf (s_eps s) k = 1%R) /\ nd_size (s_src s) = s_M s /\ nonsingular (s_M s) (s_A s) /\
  s_rho s = Val (fun _ => 0%R) /\ in_step o s (fun _ => 0%R) /\ s_omega s = ex_omega /\ s_L0 s = 1%R.
Proof.
  intros H0 o s. assert (HF := Simulation_fields _ _ _ _ _ _ _ H0).
  destruct HF as (E1 & E2 & E3 & E4 & E5 & E6 & E7 & E8 & P1 & P2 & E9 & _ & EP & _).
  cbn [nd_nx nd_ny] in *. specialize (E9 _ _ eq_refl). rewrite !Nat2Z.id in E9. specialize (EP eq_refl).
  assert (HM: s_M s = 4) by (unfold s_M, s, with_density, opt_eps; cbn; rewrite E3, E4; reflexivity).
  assert (HC: consistent s) by apply set_eps_consistent.
  assert (HE: forall k, k < 4 -> nd_buf (s_eps s) k = 1%R).
  { intros k Hk. change (nd_buf (s_eps s) k) with (rho2eps (s_M (upd_src (mkNd 2 2 src) s0)) (fun _ => 0%R) (o_eps_m o) (o_W o) (o_eta o) (o_beta o) k).
    unfold rho2eps, rhob2eps, rho2rhot, rmv. rewrite rsum_0 by (intros; ring).
    destruct (C21_projection_endpoints_and_monotone (1 / 2) 10) as (Q0 & _); [lra|lra|]. cbn [o hz_opt o_eta o_beta o_eps_m]. rewrite Q0. lra. }
  split; [exact EP|]. split; [exact HC|]. split.
  { unfold physical. change (s_L0 s) with (s_L0 s0). change (s_omega s) with (s_omega s0). change (s_xrange s) with (s_xrange s0). change (s_yrange s) with (s_yrange s0).
    change (s_Nx s) with (s_Nx s0). change (s_Ny s) with (s_Ny s0). rewrite E1, E2, E3, E4, E6, E7. cbn [fst snd INR].
    repeat split; try lra; try lia. }
  split; [exact E3|]. split; [exact E4|]. split; [exact E9|]. split; [exact HE|]. split; [rewrite HM; reflexivity|].
  split; [|split; [reflexivity|split; [intros k Hk; reflexivity|split; [exact E1|exact E2]]]].
  destruct (consistent_A s HC) as [EA _]. rewrite EA. rewrite HM. unfold s_epsC.
  change (s_omega s) with (s_omega s0). change (s_xrange s) with (s_xrange s0). change (s_yrange s) with (s_yrange s0).
  change (s_Nx s) with (s_Nx s0). change (s_Ny s) with (s_Ny s0). change (s_NPML s) with (s_NPML s0). change (s_pol s) with (s_pol s0). change (s_L0 s) with (s_L0 s0).
  rewrite E1, E2, E3, E4, E6, E7, E9, EP. assert (Q := EPSILON_0_pos).
  apply (Hz_nonsingular ex_omega 1 2 2 _ _ (nd_buf (s_eps s)) true 1%R (/ EPSILON_0)%R); try lra; try lia.
  - apply dL_new; lia.
  - left. apply Rinv_0_lt_compat. exact Q.
  - intros k Hk. assert (A: forall w, average w 2 2 (nd_buf (s_eps s)) k = 1%R).
    { intro w. unfold average. rewrite (HE k Hk), (HE _ (behind_lt w 2 2 k Hk)). field. }
    rewrite !eps_dir_average, !A, <- !RtoC_inv_all, !Cmod_R. replace (EPSILON_0 * 1 * 1)%R with EPSILON_0 by ring.
    rewrite Rabs_pos_eq by (left; apply Rinv_0_lt_compat; exact Q). split; apply Rle_refl.
  - assert (W := ex_omega_sq). apply (Rmult_lt_reg_l EPSILON_0); [exact Q|].
    replace (EPSILON_0 * (8 * / EPSILON_0))%R with 8%R by (field; lra).
    replace (EPSILON_0 * (ex_omega ^ 2 * (MU_0 * 1) * (1 * 1)))%R with (ex_omega ^ 2 * (EPSILON_0 * MU_0))%R by ring. lra.
Qed.

Lemma hz_case :
  exists s0 J ob, fam_sim "Hz" 2 2 0 0 (fun _ => 1%R) = Ok s0 /\ Objective J [Hz_lin] = Ok ob /\
  let o := hz_opt ob in
  exists src, let s := with_density o (upd_src (mkNd 2 2 src) s0) (fun _ => 0%R) in
  differentiable_at_fields ex_env o s J /\
  exists st1 g, compute_dJ ex_env (o, s) = (st1, Ok g) /\ g 0 <> 0%R.
Proof.
  destruct (fam_sim_ok "Hz" 2 2 0 0 (fun _ => 1%R) (or_intror eq_refl)) as [s0 H0].
  set (ob0 := set_J (intensity 4 1) [Hz_lin]).
  set (A := s_A (with_density (hz_opt ob0) (upd_src (mkNd 2 2 vzero) s0) (fun _ => 0%R))).
  set (src := fun k => (mv 4 A hz_field k / (Ci * RtoC ex_omega))%C).
  set (J := linear_obj 4 (fun k => - mv 4 (mT A) hz_field k)%C).
  exists s0, J, (set_J J [Hz_lin]). split; [exact H0|]. split; [reflexivity|]. intro o. exists src. intro s.
  destruct (hz_facts s0 (set_J J [Hz_lin]) src H0) as (F1 & F2 & F3 & F4 & F5 & F6 & F7 & F8 & F9 & F10 & F11 & F12 & F13).
  fold o in F11. change (with_density (hz_opt (set_J J [Hz_lin])) (upd_src (mkNd 2 2 src) s0) (fun _ => 0%R)) with s in *.
  assert (HM: s_M s = 4) by (unfold s_M; rewrite F4, F5; reflexivity).
  assert (HD: differentiable_at_fields ex_env o s J).
  { intros st1 J0 HJ. rewrite (compute_J_Hz ex_env o s J) in HJ; try assumption; try reflexivity.
    injection HJ as <- _. rewrite HM. apply linear_obj_gradient. reflexivity. }
  split; [exact HD|].
  assert (HE: forall k, k < s_M s -> (0 < nd_buf (s_eps s) k)%R) by (intros k Hk; rewrite HM in Hk; rewrite F7 by exact Hk; lra).
  destruct (C39_hz_gradient_and_derivative_partial ex_env o s (fun _ => 0%R) J Hz_lin (set_J J [Hz_lin]) ex_env_exact F1 F2 F3 HE F8 F9 F10 F11 eq_refl eq_refl eq_refl eq_refl eq_refl)
    as (st1 & g & lam & G1 & G2 & G3); [cbn; lra|cbn; lra|exact HD|].
  exists st1, g. split; [exact G1|].
  destruct (G3 0 ltac:(rewrite HM; lia)) as [G _]. rewrite G. clear G3 G.
  destruct (two_ops s F2 F3 F4 F5 F6) as (dx & dy & Hdx & Hdy & OP). cbv zeta in OP.
  assert (HA: s_A s = A) by reflexivity.
  assert (HL: veq 4 lam hz_field).
  { rewrite HM in G2. apply (solves_unique 4 (mT (s_A s)) _ _ _ (nonsingular_mT _ _ ltac:(rewrite HM in F9; exact F9)) G2).
    intros r Hr. cbn [J linear_obj pf_grad]. rewrite HA. unfold mv. ring. }
  assert (HH: veq 4 (lin_solution ex_env s) hz_field).
  { assert (Q := lin_solution_solves ex_env s ex_env_exact F9). rewrite HM in Q. rewrite HM in F9.
    apply (solves_unique 4 (s_A s) _ _ _ F9 Q). intros r Hr. unfold rhs. cbn [s_src s with_density set_eps upd_rho upd_src nd_buf]. unfold src.
    rewrite F12, HA. fold (mv 4 A hz_field r). field. split; [apply RtoC_neq0, Rgt_not_eq, ex_omega_pos|apply Ci_neq0]. }
  rewrite HM. rewrite (F7 0 ltac:(lia)).
  rewrite !(mv_ext_v 4 _ (lin_solution ex_env s) hz_field _ HH), !(mv_ext_v 4 _ lam hz_field _ HL).
  destruct (OP hz_field 0 0 ltac:(lia) ltac:(lia)) as (A1 & _ & A3 & A4 & _ & A6). cbn [pix Nat.mul Nat.add opposite Nat.sub] in *.
  change (pix 2 0 0) with 0 in *. change (pix 2 1 0) with 2 in *. change (pix 2 0 1) with 1 in *.
  rewrite A1, A3, A4, A6. unfold hz_field. cbn [Nat.ltb Nat.leb].
  assert (PF: (0 < projf o s (fun _ => 0%R) 0%nat)%R).
  { unfold projf. apply Rmult_lt_0_compat; [cbn; lra|]. apply drhob_pos; cbn; lra. }
  set (pf := projf o s (fun _ => 0%R) 0) in *. cbn [o hz_opt o_design]. rewrite F13.
  match goal with |- (- (_ * Re ?z))%R <> _ => replace z with (RtoC (/ (dx * dx)))%C end.
  2:{ rewrite RtoC_inv_all, RtoC_mult. assert (RtoC dx <> RtoC 0) by (apply RtoC_neq0; lra). assert (RtoC dy <> RtoC 0) by (apply RtoC_neq0; lra). field. auto. }
  change (Re (RtoC (/ (dx * dx)))) with (/ (dx * dx))%R. assert (Q := EPSILON_0_pos). assert (Q2: (0 < / (dx * dx))%R) by (apply Rinv_0_lt_compat; nra).
  assert (0 < pf / (EPSILON_0 * 1) * 1 / 1 ^ 2)%R by (apply Rdiv_lt_0_compat; [|lra]; apply Rmult_lt_0_compat; [|lra]; apply Rdiv_lt_0_compat; lra).
  assert (0 < pf / (EPSILON_0 * 1) * 1 / 1 ^ 2 * / (dx * dx))%R by (apply Rmult_lt_0_compat; assumption). lra.
Qed.

Theorem C39_hz_gradient_refuted : ~ C39_property.
Proof.
  intro HP. destruct hz_case as (s0 & J & ob & H0 & Hob & src & HD & st1 & g & Hg & Hne).
  set (o := hz_opt ob) in *. set (s := with_density o (upd_src (mkNd 2 2 src) s0) (fun _ => 0%R)) in *.
  destruct (hz_facts s0 ob src H0) as (F1 & F2 & F3 & F4 & F5 & F6 & F7 & F8 & F9 & F10 & F11 & _).
  fold o in F1, F2, F3, F4, F5, F6, F7, F8, F9, F10, F11. fold s in F1, F2, F3, F4, F5, F6, F7, F8, F9, F10, F11.
  assert (HM: s_M s = 4) by (unfold s_M; rewrite F4, F5; reflexivity).
  destruct (HP ex_env o s (fun _ => 0%R) J [Hz_lin] ob ex_env_exact F1 F2 F3) as (st2 & g2 & G1 & G2); try assumption; try reflexivity.
  - intros k Hk. rewrite HM in Hk. rewrite F7 by exact Hk. lra.
  - intros a [<-|[]]. exists "Hz"%string. split; [left; reflexivity|reflexivity].
  - cbn; lra.
  - cbn; lra.
  - rewrite Hg in G1. injection G1 as <- <-.
    destruct (C39_two_by_two_wrong_sign ex_env o s (fun _ => 0%R) J Hz_lin ob 1%R ex_env_exact F1 F2 F3 F4 F5 F6 Rlt_0_1 F7 F8 F9 F10 F11 eq_refl Hob eq_refl eq_refl eq_refl)
      as (st3 & g3 & K1 & K2); [cbn; lra|cbn; lra|exact HD|].
    rewrite Hg in K1. injection K1 as <- <-.
    destruct (G2 0 ltac:(rewrite HM; lia) eq_refl) as (Jt & T1 & T2). destruct (K2 0 ltac:(lia) eq_refl) as (Jt' & T1' & T2').
    apply Hne. assert (E: forall t, Jt' t = Jt t).
    { intro t. destruct (T1 t) as [x Hx]. destruct (T1' t) as [y Hy]. rewrite Hx in Hy. injection Hy as _ Hy. symmetry; exact Hy. }
    apply (is_derive_ext Jt' Jt 0%R _ E) in T2'.
    assert (Q1 := is_derive_unique _ _ _ T2). assert (Q2 := is_derive_unique _ _ _ T2').
    assert (Q3: g 0 = (- g 0%nat)%R) by exact (eq_trans (eq_sym Q1) Q2). lra.
Qed.
Example C39_met :
  exists s0 J ob src, fam_sim "Hz" 2 2 0 0 (fun _ => 1%R) = Ok s0 /\
  new_obj_arg "Hz" false = Ok Hz_lin /\ Objective J [Hz_lin] = Ok ob /\
  let o := hz_opt ob in let s := with_density o (upd_src (mkNd 2 2 src) s0) (fun _ => 0%R) in
  s_pol s = PolHz /\ consistent s /\ physical s /\ s_Nx s = 2 /\ s_Ny s = 2 /\ s_NPML s = (0, 0) /\
  (forall k, k < 4 -> nd_buf (s_eps s) k = 1%R) /\ nd_size (s_src s) = s_M s /\ nonsingular (s_M s) (s_A s) /\
  s_rho s = Val (fun _ => 0%R) /\ in_step o s (fun _ => 0%R) /\ differentiable_at_fields ex_env o s J /\
  exists st1 g, compute_dJ ex_env (o, s) = (st1, Ok g) /\ g 0 <> 0%R.
Proof.
  destruct hz_case as (s0 & J & ob & H0 & Hob & src & HD & H). exists s0, J, ob, src. split; [exact H0|]. split; [reflexivity|]. split; [exact Hob|].
  intros o s. destruct (hz_facts s0 ob src H0) as (F1 & F2 & F3 & F4 & F5 & F6 & F7 & F8 & F9 & F10 & F11 & _).
  split; [exact F1|]. split; [exact F2|]. split; [exact F3|]. split; [exact F4|]. split; [exact F5|]. split; [exact F6|]. split; [exact F7|].
  split; [exact F8|]. split; [exact F9|]. split; [exact F10|]. split; [exact F11|]. split; [exact HD|exact H].
Qed.
