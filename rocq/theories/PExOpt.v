(** Concrete optimizations that meet the hypotheses of the theorems on gradients and
    optimizers, with or without PML and filter. *)
From Coq Require Import Reals Lra Lia List ZArith Arith Bool String.
From Coquelicot Require Import Coquelicot.
From Verif Require Import Base Linear MCore MSim Spec PCore PSim PEx PropsCore MFilter PropsFilter MOpt PDiff PGrad.
Import ListNotations.
Local Open Scope nat_scope.

(** ** Non-singular Ez matrices with PML *)
Lemma Cmod_ge_re z : (Rabs (Re z) <= Cmod z)%R.
Proof. destruct z as [a b]. apply (Rmax_Cmod (a, b)) || (eapply Rle_trans; [|apply Rmax_Cmod]; apply Rmax_l). Qed.
Lemma inv_sfactor_le1 range L0 s omega Nw Np i : (0 < omega)%R -> (0 < L0)%R -> (fst range < snd range)%R -> 0 < Nw ->
  (Cmod (/ create_sfactor range L0 s omega Nw Np i)%C <= 1)%R.
Proof.
  intros H1 H2 H3 H4. destruct (sfactor_shape range L0 s omega Nw Np i H1 H2 H3 H4) as [E _].
  assert (HN := sfactor_neq0 range L0 s omega Nw Np i H1 H2 H3 H4). rewrite Cmod_inv by exact HN.
  assert (HG := Cmod_ge_re (create_sfactor range L0 s omega Nw Np i)). rewrite E, Rabs_R1 in HG.
  rewrite <- Rinv_1. apply Rinv_le_contravar; lra.
Qed.
Lemma deriv_bound w s omega L0 Nx Ny NPML xr yr d X m k : (0 < omega)%R -> (0 < L0)%R ->
  (fst xr < snd xr)%R -> (fst yr < snd yr)%R -> 2 <= Nx -> 2 <= Ny -> dL Nx Ny xr yr = (d, d) -> (0 < d)%R ->
  (forall j, j < Nx * Ny -> (Cmod (X j) <= m)%R) -> k < Nx * Ny ->
  (Cmod (mv (Nx * Ny) (make_deriv w s omega L0 Nx Ny NPML xr yr) X k) <= 2 / d * m)%R.
Proof.
  intros Ho HL Hx Hy HNx HNy Hd Hd0 HX Hk. rewrite make_deriv_mv by exact Hk. rewrite Hd. cbn [fst snd].
  rewrite Cmod_mult.
  assert (Hm: (0 <= m)%R) by (eapply Rle_trans; [apply Cmod_ge_0|apply (HX k Hk)]).
  assert (HS: (Cmod (S_vec w s omega L0 Nx Ny NPML xr yr k) <= 1)%R).
  { unfold S_vec. destruct w; apply inv_sfactor_le1; try assumption; lia. }
  assert (HD: (Cmod (mv (Nx * Ny) (createDws w s d d Nx Ny) X k) <= 2 / d * m)%R).
  { destruct (pix_bound _ _ _ Hk) as (i & j & Hi & Hj & ->).
    assert (HT: forall a b, a < Nx * Ny -> b < Nx * Ny -> (Cmod ((X a - X b) / RtoC d)%C <= 2 / d * m)%R).
    { intros a b Ha Hb. rewrite Cmod_div by (apply RtoC_neq0; lra). rewrite Cmod_R, (Rabs_pos_eq d) by lra.
      assert (H1 := HX a Ha). assert (H2 := HX b Hb).
      assert (H3: (Cmod (X a - X b)%C <= 2 * m)%R).
      { unfold Cminus. eapply Rle_trans; [apply Cmod_triangle|]. rewrite Cmod_opp. lra. }
      replace (2 / d * m)%R with (2 * m / d)%R by (field; lra). apply Rmult_le_compat_r; [|exact H3].
      left. apply Rinv_0_lt_compat; assumption. }
    destruct w, s; rewrite ?Dxf_stencil, ?Dxb_stencil, ?Dyf_stencil, ?Dyb_stencil by (assumption || lra);
      unfold diff_xf, diff_xb, diff_yf, diff_yb; apply HT; apply flat_lt; try assumption; (apply next_lt || apply prev_lt); assumption. }
  assert (H0 := Cmod_ge_0 (mv (Nx * Ny) (createDws w s d d Nx Ny) X k)).
  eapply Rle_trans; [apply Rmult_le_compat_r; [exact H0|exact HS]|]. rewrite Rmult_1_l. exact HD.
Qed.
Lemma Ez_nonsingular_pml omega L0 Nx Ny NPML xr yr (eps : rvec) av d :
  (0 < omega)%R -> (fst xr < snd xr)%R -> (fst yr < snd yr)%R ->
  2 <= Nx -> 2 <= Ny -> dL Nx Ny xr yr = (d, d) -> (0 < d)%R -> (0 < L0)%R ->
  (forall k, k < Nx * Ny -> (8 < omega ^ 2 * (EPSILON_0 * L0) * (MU_0 * L0) * (d * d) * eps k)%R) ->
  nonsingular (Nx * Ny) (fst (construct_A omega xr yr Nx Ny (cvec eps) NPML PolEz L0 av)).
Proof.
  intros Ho Hxr Hyr HNx HNy Hd Hd0 HL He. apply nonsingular_max. intros x p Hp Hmax H.
  rewrite mv_construct_Ez in H by exact Hp. cbv zeta in H. unfold make_derivs, Dxf, Dxb, Dyf, Dyb in H.
  set (m := Cmod (x p)) in *.
  assert (HB: forall w, (Cmod (mv (Nx * Ny) (make_deriv w Fwd omega L0 Nx Ny NPML xr yr) (mv (Nx * Ny) (make_deriv w Bwd omega L0 Nx Ny NPML xr yr) x) p)
      <= 4 / (d * d) * m)%R).
  { intro w. replace (4 / (d * d) * m)%R with (2 / d * (2 / d * m))%R by (field; lra).
    apply deriv_bound; try assumption. intros j Hj. apply deriv_bound; assumption. }
  assert (Bx := HB AxX). assert (By := HB AxY). clear HB.
  set (a := mv (Nx * Ny) (make_deriv AxX Fwd omega L0 Nx Ny NPML xr yr) _ p) in *.
  set (b := mv (Nx * Ny) (make_deriv AxY Fwd omega L0 Nx Ny NPML xr yr) _ p) in *.
  assert (Hmu: (0 < MU_0 * L0)%R) by (apply Rmult_lt_0_compat; [apply MU_0_pos|lra]).
  assert (Hdd: (0 < d * d)%R) by nra.
  specialize (He p Hp). set (g := (omega ^ 2 * (EPSILON_0 * L0) * (MU_0 * L0) * eps p)%R).
  assert (Hg: (8 < g * (d * d))%R) by (unfold g; lra).
  assert (E: (RtoC g * x p)%C = (- (a + b))%C).
  { assert (E0: (a + b + RtoC g * x p)%C = RtoC 0).
    { transitivity (RtoC (MU_0 * L0) * (RtoC (1 / (MU_0 * L0)) * (a + b) + RtoC (omega ^ 2) * (RtoC (EPSILON_0 * L0) * cvec eps p) * x p))%C.
      - unfold cvec, g. rewrite (RtoC_mult _ (eps p)), (RtoC_mult _ (MU_0 * L0)), (RtoC_mult (omega ^ 2)).
        rewrite RtoC_div by lra. field. apply RtoC_neq0; lra.
      - rewrite H. ring. }
    transitivity ((a + b + RtoC g * x p) - (a + b))%C; [ring|]. rewrite E0. ring. }
  apply (f_equal Cmod) in E. rewrite Cmod_mult, Cmod_R, Cmod_opp in E. fold m in E.
  assert (T := Cmod_triangle a b).
  assert (Hm: (0 <= m)%R) by apply Cmod_ge_0.
  assert (Hg0: (0 < g)%R) by nra. rewrite Rabs_pos_eq in E by lra.
  assert (Hle: (g * m <= 8 / (d * d) * m)%R).
  { rewrite E. replace (8 / (d * d) * m)%R with (4 / (d * d) * m + 4 / (d * d) * m)%R by (field; lra). lra. }
  apply Cmod_eq_0. fold m.
  assert (H8: (g * m * (d * d) <= 8 * m)%R).
  { replace (8 * m)%R with (8 / (d * d) * m * (d * d))%R by (field; lra). apply Rmult_le_compat_r; lra. }
  nra.
Qed.

(** ** A family of simulations and optimizations *)
(** simulation with frequency ex_omega, unit pixels, given PML and source *)
Definition fam_sim (p : string) (Nx Ny px py : nat) (eps : rvec) : res sim :=
  Simulation ex_omega (mkNd Nx Ny eps) 1 (Some [Z.of_nat px; Z.of_nat py]) p 1.
Lemma fam_sim_ok p Nx Ny px py eps : (p = "Ez" \/ p = "Hz")%string -> exists s, fam_sim p Nx Ny px py eps = Ok s.
Proof.
  intro Hp. unfold fam_sim, Simulation, check_inputs. destruct (Rlt_dec 0 1); [|lra].
  destruct (Rlt_dec 0 ex_omega) as [|H]; [|exfalso; apply H, ex_omega_pos].
  rewrite !(proj2 (Z.leb_le 0 _)) by lia. destruct Hp as [-> | ->]; eexists; reflexivity.
Qed.

(** Everything the gradient theorems need of a simulation in step with a density. *)
Lemma fam_facts Nx Ny px py eps s0 o src rho :
  fam_sim "Ez" Nx Ny px py eps = Ok s0 -> 2 <= Nx -> 2 <= Ny ->
  (forall k, k < Nx * Ny -> (1 / 2 < rho2eps (Nx * Ny) rho (o_eps_m o) (o_W o) (o_eta o) (o_beta o) k)%R) ->
  let s := with_density o (upd_src (mkNd Nx Ny src) s0) rho in
  s_pol s = PolEz /\ consistent s /\ nd_size (s_src s) = s_M s /\ nonsingular (s_M s) (s_A s) /\
  s_rho s = Val rho /\ in_step o s rho /\ s_M s = Nx * Ny /\ physical s.
Proof.
  intros H0 HNx HNy HE s. assert (HF := Simulation_fields _ _ _ _ _ _ _ H0).
  destruct HF as (E1 & E2 & E3 & E4 & E5 & E6 & E7 & E8 & P1 & P2 & E9 & EP & _ & _).
  cbn [nd_nx nd_ny] in *. specialize (E9 _ _ eq_refl). rewrite !Nat2Z.id in E9. specialize (EP eq_refl).
  assert (HM: s_M s = Nx * Ny) by (unfold s_M, s, with_density, opt_eps; cbn; rewrite E3, E4; reflexivity).
  assert (HC: consistent s) by apply set_eps_consistent.
  assert (HM0: s_M (upd_src (mkNd Nx Ny src) s0) = Nx * Ny) by (unfold s_M; cbn; rewrite E3, E4; reflexivity).
  split; [exact EP|]. split; [exact HC|]. split; [rewrite HM; reflexivity|].
  split; [|split; [reflexivity|split; [|split; [exact HM|]]]].
  - destruct (consistent_A s HC) as [EA _]. rewrite EA. rewrite HM. unfold s_epsC.
    change (s_omega s) with (s_omega s0). change (s_xrange s) with (s_xrange s0). change (s_yrange s) with (s_yrange s0).
    change (s_Nx s) with (s_Nx s0). change (s_Ny s) with (s_Ny s0). change (s_NPML s) with (s_NPML s0). change (s_pol s) with (s_pol s0). change (s_L0 s) with (s_L0 s0).
    rewrite E1, E2, E3, E4, E6, E7, E9, EP.
    assert (0 < INR Nx)%R by (apply lt_0_INR; lia). assert (0 < INR Ny)%R by (apply lt_0_INR; lia).
    apply Ez_nonsingular_pml with (d := 1%R); try (cbn [fst snd]; lra || lia).
    + apply dL_new; lia.
    + intros k Hk. change (nd_buf (s_eps s) k) with (rho2eps (s_M (upd_src (mkNd Nx Ny src) s0)) rho (o_eps_m o) (o_W o) (o_eta o) (o_beta o) k).
      rewrite HM0. specialize (HE k Hk).
      replace (ex_omega ^ 2 * (EPSILON_0 * 1) * (MU_0 * 1) * (1 * 1))%R with (ex_omega ^ 2 * (EPSILON_0 * MU_0))%R by ring.
      rewrite ex_omega_sq. lra.
  - intros k Hk. reflexivity.
  - unfold physical. change (s_L0 s) with (s_L0 s0). change (s_omega s) with (s_omega s0). change (s_xrange s) with (s_xrange s0). change (s_yrange s) with (s_yrange s0).
    change (s_Nx s) with (s_Nx s0). change (s_Ny s) with (s_Ny s0). rewrite E1, E2, E3, E4, E6, E7. cbn [fst snd].
    assert (0 < INR Nx)%R by (apply lt_0_INR; lia). assert (0 < INR Ny)%R by (apply lt_0_INR; lia).
    repeat split; try lra; try lia.
Qed.
(** without filter the permittivity of a density in [0,1] is at least 1 *)
Lemma fam_eps_ge1 N rho eps_m eta beta k : (0 < beta)%R -> (0 <= eta <= 1)%R -> (1 <= eps_m)%R -> k < N -> (0 <= rho k <= 1)%R ->
  (1 / 2 < rho2eps N rho eps_m rId eta beta k)%R.
Proof. intros Hb He Hm Hk Hr. destruct (C25_permittivity_in_range N rho eps_m eta beta Hb He Hm k Hk) as [H _]. cbv zeta in H. specialize (H Hr). lra. Qed.

(** ** The objective "total intensity of the fields" *)
Definition intensity (M : nat) (n : nat) : pyfun :=
  mkFun n (fun Fs => rsum (List.length Fs) (fun i => rsum M (fun k => Cnorm2 (List.nth i Fs vzero k))))
        (fun i Fs k => (RtoC 2 * Cconj (List.nth i Fs vzero k))%C).
Lemma Cnorm2_diff z w : (Cnorm2 w - Cnorm2 z - Re (RtoC 2 * Cconj z * (w - z))%C = Cmod (w - z)%C ^ 2)%R.
Proof. rewrite Cmod2. unfold Cnorm2. autorewrite with reim. simpl. ring. Qed.
Lemma rsum_sq_le n f : (forall k, k < n -> (0 <= f k)%R) -> (rsum n (fun k => f k ^ 2) <= (rsum n f) ^ 2)%R.
Proof.
  induction n; intro H; cbn [rsum]; [lra|]. assert (IH := IHn ltac:(intros; apply H; lia)). assert (Hn := H n ltac:(lia)).
  assert (0 <= rsum n f)%R by (apply rsum_ge0; intros; apply H; lia). nra.
Qed.
Lemma rsum_minus n f g : rsum n (fun k => f k - g k)%R = (rsum n f - rsum n g)%R.
Proof. induction n; cbn [rsum]; [ring|]. rewrite IHn. ring. Qed.
Lemma intensity_gradient M n Fs : is_gradient M (pf_val (intensity M n)) Fs (fun i => pf_grad (intensity M n) i Fs).
Proof.
  intros eps He. exists eps. split; [exact He|]. intros Gs HL Hd. cbn [intensity pf_val pf_grad]. change (@List.length vec) with (@List.length (nat -> C)). rewrite HL.
  set (N := List.length Fs) in *. change (fun _ : nat => RtoC 0) with vzero in *.
  set (F := fun i => List.nth i Fs vzero). set (G := fun i => List.nth i Gs vzero).
  assert (E: (rsum N (fun i => rsum M (fun k => Cnorm2 (G i k))) - rsum N (fun i => rsum M (fun k => Cnorm2 (F i k)))
    - rsum N (fun i => Re (csum M (fun k => (RtoC 2 * Cconj (F i k) * (G i k - F i k))%C)))
    = rsum N (fun i => rsum M (fun k => Cmod (G i k - F i k)%C ^ 2)))%R).
  { rewrite <- rsum_minus, <- rsum_minus. apply rsum_ext. intros i _. rewrite Re_csum, <- rsum_minus, <- rsum_minus.
    apply rsum_ext. intros k _. apply Cnorm2_diff. }
  match goal with |- (Rabs ?x <= _)%R => replace x with (rsum N (fun i => rsum M (fun k => Cmod (G i k - F i k)%C ^ 2)%R)) by (symmetry; exact E) end. clear E.
  assert (E2: (rsum N (fun i => rsum M (fun k => Cmod (G i k - F i k)%C ^ 2)) <= (field_change M Fs Gs) ^ 2)%R).
  { unfold field_change. fold N. eapply Rle_trans; [|apply rsum_sq_le].
    - apply rsum_le. intros i _. apply rsum_sq_le. intros; apply Cmod_ge_0.
    - intros. apply rsum_ge0. intros; apply Cmod_ge_0. }
  assert (H0: (0 <= field_change M Fs Gs)%R).
  { unfold field_change. apply rsum_ge0; intros. apply rsum_ge0; intros. apply Cmod_ge_0. }
  rewrite Rabs_pos_eq by (apply rsum_ge0; intros; apply rsum_ge0; intros; apply pow2_ge_0). nra.
Qed.
(** ** Linear objectives Re(c . F) of one field *)
Definition linear_obj (M : nat) (c : vec) : pyfun :=
  mkFun 1 (fun Fs => Re (csum M (fun k => (c k * List.nth 0 Fs vzero k)%C))) (fun _ _ => c).
Lemma linear_obj_gradient M c Fs : List.length Fs = 1 -> is_gradient M (pf_val (linear_obj M c)) Fs (fun i => pf_grad (linear_obj M c) i Fs).
Proof.
  intros H1 eps He. exists 1%R. split; [lra|]. intros Gs HL Hd. cbn [linear_obj pf_val pf_grad]. rewrite H1 in *. cbn [rsum].
  change (fun _ : nat => RtoC 0) with vzero. rewrite !Re_csum.
  match goal with |- (Rabs ?x <= _)%R => replace x with 0%R end.
  - rewrite Rabs_R0. apply Rmult_le_pos; [lra|]. unfold field_change. apply rsum_ge0; intros. apply rsum_ge0; intros. apply Cmod_ge_0.
  - rewrite Rplus_0_l, <- !rsum_minus. symmetry. apply rsum_0. intros k _. change (@List.nth vec) with (@List.nth (nat -> C)). autorewrite with reim. ring.
Qed.
