(** C18-C25: density filter, projection, permittivity maps. *)
From Coq Require Import Reals Lra Lia List ZArith Arith Bool String.
From Coquelicot Require Import Coquelicot.
From Verif Require Import Base Linear MCore MSim MFilter Spec PCore PFilter PTanh.
Import ListNotations.

Lemma get_W_form Nx Ny design px py Rr W : get_W Nx Ny design (px, py) Rr = Ok W ->
  exists W0, csr_matrix (filter_triplets (Z.of_nat Rr) (Z.of_nat Nx) (Z.of_nat Ny) (Z.of_nat px) (Z.of_nat py)) (Z.of_nat (Nx * Ny)) = Ok W0 /\
    let n0 := fun r => rsum (Nx * Ny) (fun c => W0 r c) in
    forall r c, W r c = (design r * (W0 r c * (1 / (if Req_EM_T (n0 c) 0 then 1 else n0 c))) + (if Nat.eqb r c then 1 - design r else 0))%R.
Proof.
  unfold get_W; cbn [fst snd]. destruct (csr_matrix _ _) as [W0|]; [|discriminate]. intro H; injection H as <-.
  exists W0. split; reflexivity.
Qed.

(* ------------------------------------------------------------------ *)
(** * C18 *)
Theorem C18_filter_keeps_density_outside_design_region :
  forall Nx Ny design NPML Rr W rho k, get_W Nx Ny design NPML Rr = Ok W ->
  (k < Nx * Ny)%nat -> design k = 0%R ->
  rho2rhot (Nx * Ny) rho W k = rho k.
Proof.
  intros Nx Ny design [px py] Rr W rho k H Hk Hd. apply get_W_form in H as (W0 & _ & E). cbv zeta in E.
  unfold rho2rhot, rmv. rewrite (rsum_single _ k); [|assumption|].
  - rewrite E, Hd, Nat.eqb_refl. ring.
  - intros c Hc Hne. rewrite E, Hd. destruct (Nat.eqb_spec k c); [congruence|]. ring.
Qed.

(* ------------------------------------------------------------------ *)
(** * C19 *)
(** the pixels along an axis whose neighbours within distance < R are all filtered *)
Definition deep (Rr p N i : nat) : Prop := (2 * Rr + p <= i /\ i + 2 * Rr + p < N)%nat.
(** the pixels along an axis that get_W filters when there is a PML (filter.py:35, 40) *)
Definition filtered (Rr p N i : nat) : Prop := (Rr + p + 1 <= i /\ i + Rr + p + 1 < N)%nat.
Definition pixel_distance (i j i2 j2 : nat) : R := sqrt ((INR i - INR i2) ^ 2 + (INR j - INR j2) ^ 2).
Definition averaging_weights (N : nat) (w : nat -> R) : Prop :=
  (forall c, (c < N)%nat -> (0 <= w c)%R) /\ rsum N w = 1%R.

Lemma rowed_pml Nx Ny px py Rr i j : (0 < px)%nat -> (0 < py)%nat ->
  (rowed Nx Ny px py Rr i j <-> filtered Rr px Nx i /\ filtered Rr py Ny j).
Proof.
  intros Hx Hy. unfold rowed, filtered, filter_range.
  destruct (Z.eqb_spec (Z.of_nat px) 0); [lia|]. destruct (Z.eqb_spec (Z.of_nat py) 0); [lia|].
  rewrite !in_zrange. lia.
Qed.
Lemma cone_dist Rr i j i2 j2 : cone (Z.of_nat Rr) (Z.of_nat i2 - Z.of_nat i) (Z.of_nat j2 - Z.of_nat j)
  = Rmax 0 (INR Rr - pixel_distance i j i2 j2).
Proof.
  unfold cone, pixel_distance. f_equal. rewrite <- INR_IZR_INZ. f_equal. f_equal.
  rewrite plus_IZR, !mult_IZR, !minus_IZR, <- !INR_IZR_INZ. ring.
Qed.
Lemma csr_pml_ok Nx Ny px py Rr : (0 < px)%nat -> (0 < py)%nat ->
  exists W0, csr_matrix (filter_triplets (Z.of_nat Rr) (Z.of_nat Nx) (Z.of_nat Ny) (Z.of_nat px) (Z.of_nat py)) (Z.of_nat (Nx * Ny)) = Ok W0.
Proof.
  intros Hx Hy. unfold csr_matrix. rewrite (proj2 (forallb_forall _ _)); [eexists; reflexivity|].
  intros (r, (c, v)) Hin. apply in_triplets in Hin as (i & j & Hi & Hj & -> & Hin).
  unfold filter_range in Hi, Hj. destruct (Z.eqb_spec (Z.of_nat px) 0); [lia|]. destruct (Z.eqb_spec (Z.of_nat py) 0); [lia|].
  apply in_zrange in Hi. apply in_zrange in Hj.
  assert (Hc: (0 <= c < Z.of_nat (Nx * Ny))%Z).
  { unfold filter_row in Hin. apply in_flat_map in Hin as (a & Ha & Hin). apply in_zrange in Ha.
    assert (HC: forall jds i2 c v, (0 <= i2 < Z.of_nat Nx)%Z -> (forall b, List.In b jds -> 0 <= j + b < Z.of_nat Ny)%Z ->
      List.In (c, v) (filter_cols (Z.of_nat Rr) (Z.of_nat Nx) (Z.of_nat Ny) i j jds i2) -> (0 <= c < Z.of_nat (Nx * Ny))%Z).
    { induction jds as [|jd t IH]; intros i2 c' v' Hi2 Hb H; [destruct H|]. cbn [filter_cols] in H.
      rewrite (wrap_in i2) in H by assumption. apply in_app_or in H as [H|H].
      - rewrite wrap_in in H by (apply Hb; left; reflexivity).
        destruct (Rlt_dec 0 _); [|destruct H]. destruct H as [H|[]]. injection H as <- _. unfold sub2ind.
        assert (Hj' := Hb jd (or_introl eq_refl)). nia.
      - eapply IH; [exact Hi2| |exact H]. intros b Hb'. apply Hb; right; assumption. }
    eapply HC; [| |exact Hin]; [lia|]. intros b Hb. apply in_zrange in Hb. lia. }
  unfold sub2ind. rewrite !andb_true_iff, !Z.leb_le, !Z.ltb_lt. nia.
Qed.
Theorem C19_filter_is_average_in_the_interior_partial :
  forall Nx Ny design px py Rr, (0 < px)%nat -> (0 < py)%nat -> (0 < Rr)%nat ->
  exists W, get_W Nx Ny design (px, py) Rr = Ok W /\
  forall i j, deep Rr px Nx i -> deep Rr py Ny j -> design (pix Ny i j) = 1%R ->
    averaging_weights (Nx * Ny) (W (pix Ny i j)) /\
    (forall i2 j2, (i2 < Nx)%nat -> (j2 < Ny)%nat ->
       (W (pix Ny i j) (pix Ny i2 j2) = 0%R <-> (INR Rr <= pixel_distance i j i2 j2)%R)) /\
    (forall rho, (forall c, (c < Nx * Ny)%nat -> 0 <= rho c <= 1)%R -> (0 <= rho2rhot (Nx * Ny) rho W (pix Ny i j) <= 1)%R) /\
    (forall v, rho2rhot (Nx * Ny) (fun _ => v) W (pix Ny i j) = v).
Proof.
  intros Nx Ny design px py Rr Hpx Hpy HR.
  destruct (csr_pml_ok Nx Ny px py Rr Hpx Hpy) as [W0 HW0].
  assert (HW: exists W, get_W Nx Ny design (px, py) Rr = Ok W).
  { unfold get_W; cbn [fst snd]. rewrite HW0. eexists; reflexivity. }
  destruct HW as [W HW]. exists W. split; [exact HW|]. intros i j Hi Hj Hd.
  apply get_W_form in HW as (W0' & HW0' & E). assert (W0' = W0) by congruence. subst W0'. cbv zeta in E.
  assert (Hrow: rowed Nx Ny px py Rr i j) by (apply rowed_pml; try assumption; unfold filtered, deep in *; lia).
  assert (HT := cone_total_pos (Z.of_nat Rr) ltac:(lia)).
  assert (HE: forall i2 j2, (i2 < Nx)%nat -> (j2 < Ny)%nat ->
    W (pix Ny i j) (pix Ny i2 j2) = (Rmax 0 (INR Rr - pixel_distance i j i2 j2) / cone_total (Z.of_nat Rr))%R).
  { intros i2 j2 Hi2 Hj2. rewrite E, Hd.
    rewrite (W_entry _ _ _ _ _ _ HW0) by (try assumption; unfold deep in *; lia).
    destruct (Z.le_gt_cases (Z.of_nat Rr) (Z.abs (Z.of_nat i2 - Z.of_nat i))) as [L1|L1];
      [|destruct (Z.le_gt_cases (Z.of_nat Rr) (Z.abs (Z.of_nat j2 - Z.of_nat j))) as [L2|L2]].
    1,2: rewrite <- cone_dist, cone_far by lia; unfold Rdiv; destruct (Nat.eqb _ _); ring.
    rewrite <- cone_dist.
    assert (Hrow2: rowed Nx Ny px py Rr i2 j2) by (apply rowed_pml; try assumption; unfold filtered, deep in *; lia).
    rewrite (W_rowsum_cone _ _ _ _ _ _ HW0) by (try assumption; unfold deep in *; lia).
    destruct (Req_EM_T _ _); [lra|]. destruct (Nat.eqb _ _); field; lra. }
  assert (HA: averaging_weights (Nx * Ny) (W (pix Ny i j))).
  { split.
    - intros c Hc. destruct (Nat.eq_dec Ny 0) as [->|HNy]; [lia|].
      rewrite <- (flat_eta Ny c) by lia. fold (pix Ny (c / Ny) (c mod Ny)).
      rewrite HE by (try (apply Nat.mod_upper_bound; lia); apply Nat.div_lt_upper_bound; lia).
      apply Rmult_le_pos; [apply Rmax_l|left; apply Rinv_0_lt_compat; assumption].
    - rewrite (rsum_ext _ _ (fun c => (W0 (pix Ny i j) c * (1 / cone_total (Z.of_nat Rr)))%R)).
      + rewrite rsum_scal_r. rewrite (W_rowsum_cone _ _ _ _ _ _ HW0) by (try assumption; unfold deep in *; lia). field; lra.
      + intros c Hc. destruct (Nat.eq_dec Ny 0) as [->|HNy]; [lia|].
        rewrite <- (flat_eta Ny c) by lia. fold (pix Ny (c / Ny) (c mod Ny)).
        assert (c / Ny < Nx)%nat by (apply Nat.div_lt_upper_bound; lia).
        assert (c mod Ny < Ny)%nat by (apply Nat.mod_upper_bound; lia).
        rewrite HE by assumption.
        rewrite (W_entry _ _ _ _ _ _ HW0) by (try assumption; unfold deep in *; lia). rewrite cone_dist. field; lra. }
  split; [exact HA|]. split; [|split].
  - intros i2 j2 Hi2 Hj2. rewrite HE by assumption. split; intro H.
    + assert (HM: Rmax 0 (INR Rr - pixel_distance i j i2 j2) = 0%R).
      { apply (Rmult_eq_reg_r (/ cone_total (Z.of_nat Rr))); [unfold Rdiv in H; lra|]. apply Rinv_neq_0_compat; lra. }
      assert (HL := Rmax_r 0 (INR Rr - pixel_distance i j i2 j2)). lra.
    + rewrite Rmax_left by lra. unfold Rdiv; ring.
  - intros rho Hrho. destruct HA as [HA1 HA2]. unfold rho2rhot, rmv. split.
    + apply rsum_ge0. intros c Hc. apply Rmult_le_pos; [apply HA1|apply Hrho]; assumption.
    + rewrite <- HA2. apply rsum_le. intros c Hc. assert (H1 := HA1 c Hc). assert (H2 := Hrho c Hc).
      rewrite <- (Rmult_1_r (W (pix Ny i j) c)) at 2. apply Rmult_le_compat_l; lra.
  - intro v. unfold rho2rhot, rmv. rewrite rsum_scal_r. destruct HA as [_ ->]. ring.
Qed.
(** Design pixels that get_W does not filter (within R of the PML) lose their density. *)
Theorem C19_near_pml_refuted :
  forall Nx Ny design px py Rr W, (0 < px)%nat -> (0 < py)%nat -> get_W Nx Ny design (px, py) Rr = Ok W ->
  forall i j, (i < Nx)%nat -> (j < Ny)%nat -> design (pix Ny i j) = 1%R ->
  ~ (filtered Rr px Nx i /\ filtered Rr py Ny j) ->
  forall rho, rho2rhot (Nx * Ny) rho W (pix Ny i j) = 0%R.
Proof.
  intros Nx Ny design px py Rr W Hpx Hpy HW i j Hi Hj Hd Hn rho.
  apply get_W_form in HW as (W0 & HW0 & E). cbv zeta in E.
  unfold rho2rhot, rmv. apply rsum_0. intros c Hc. rewrite E, Hd.
  rewrite (W_norow _ _ _ _ _ _ HW0); [|assumption|rewrite rowed_pml; assumption].
  destruct (Nat.eqb _ _); ring.
Qed.
(** At the first filtered pixel the weights add up to more than one: a uniform
    density 1 in the design region becomes larger than 1, for every R >= 2. *)
Theorem C19_edge_refuted :
  forall Nx Ny design px py Rr W, (0 < px)%nat -> (0 < py)%nat -> (2 <= Rr)%nat ->
  get_W Nx Ny design (px, py) Rr = Ok W ->
  let i := (Rr + px + 1)%nat in let j := (Rr + py + 1)%nat in
  filtered Rr px Nx i -> filtered Rr py Ny j -> design (pix Ny i j) = 1%R ->
  (rho2rhot (Nx * Ny) (fun _ => 1) W (pix Ny i j) > 1)%R.
Proof.
  intros Nx Ny design px py Rr W Hpx Hpy HR HW i j Hi Hj Hd.
  apply get_W_form in HW as (W0 & HW0 & E). cbv zeta in E.
  assert (Hrow: rowed Nx Ny px py Rr i j) by (apply rowed_pml; auto).
  assert (HT := cone_total_pos (Z.of_nat Rr) ltac:(lia)).
  assert (HN: forall c, (0 < (if Req_EM_T (rsum (Nx * Ny) (fun c0 => W0 c c0)) 0 then 1 else rsum (Nx * Ny) (fun c0 => W0 c c0)))%R).
  { intro c. destruct (Req_EM_T _ _); [lra|]. assert (0 <= rsum (Nx * Ny) (fun c0 => W0 c c0))%R; [|lra].
    apply rsum_ge0; intros; eapply W_ge0; eassumption. }
  assert (HG: forall c, (c < Nx * Ny)%nat -> (0 <= W (pix Ny i j) c * 1)%R).
  { intros c Hc. rewrite E, Hd. assert (H1 := W_ge0 _ _ _ _ _ _ HW0 (pix Ny i j) c). assert (H2 := HN c).
    assert (0 <= 1 / (if Req_EM_T (rsum (Nx * Ny) (fun c0 => W0 c c0)) 0 then 1 else rsum (Nx * Ny) (fun c0 => W0 c c0)))%R.
    { left. apply Rdiv_lt_0_compat; lra. }
    assert (0 <= W0 (pix Ny i j) c * (1 / (if Req_EM_T (rsum (Nx * Ny) (fun c0 => W0 c c0)) 0 then 1 else rsum (Nx * Ny) (fun c0 => W0 c c0))))%R
      by (apply Rmult_le_pos; assumption).
    destruct (Nat.eqb _ _); lra. }
  unfold rho2rhot, rmv. unfold filtered in Hi, Hj.
  assert (B1: (pix Ny i j < Nx * Ny)%nat) by (apply flat_lt; unfold i, j; lia).
  assert (B2: (pix Ny (i - 1) j < Nx * Ny)%nat) by (apply flat_lt; unfold i, j; lia).
  assert (B3: pix Ny i j <> pix Ny (i - 1) j). { unfold pix, i. nia. }
  assert (T2: (W (pix Ny i j) (pix Ny (i - 1) j) * 1 >= 1)%R).
  { rewrite E, Hd. destruct (Nat.eqb_spec (pix Ny i j) (pix Ny (i - 1) j)); [contradiction|].
    rewrite (rsum_0 (Nx * Ny) (fun c => W0 (pix Ny (i - 1) j) c)).
    2:{ intros c Hc. apply (W_norow _ _ _ _ _ _ HW0); [lia|]. rewrite rowed_pml by assumption. unfold filtered, i. lia. }
    destruct (Req_EM_T 0 0); [|lra].
    rewrite (W_entry _ _ _ _ _ _ HW0) by (try assumption; unfold i, j in *; lia).
    replace (Z.of_nat (i - 1) - Z.of_nat i)%Z with (-1)%Z by (unfold i; lia).
    rewrite Z.sub_diag. unfold cone. replace (-1 * -1 + 0 * 0)%Z with 1%Z by reflexivity. rewrite sqrt_1.
    assert (H2: (2 <= IZR (Z.of_nat Rr))%R) by (apply IZR_le; lia). rewrite Rmax_right by lra. lra. }
  assert (T1: (W (pix Ny i j) (pix Ny i j) * 1 > 0)%R).
  { rewrite E, Hd, Nat.eqb_refl. rewrite (W_entry _ _ _ _ _ _ HW0) by (try assumption; unfold i, j in *; lia).
    rewrite !Z.sub_diag. unfold cone. replace (0 * 0 + 0 * 0)%Z with 0%Z by reflexivity. rewrite sqrt_0.
    assert (H2: (2 <= IZR (Z.of_nat Rr))%R) by (apply IZR_le; lia). rewrite Rmax_right by lra.
    assert (H3 := HN (pix Ny i j)).
    assert (0 < 1 / (if Req_EM_T (rsum (Nx * Ny) (fun c0 => W0 (pix Ny i j) c0)) 0 then 1 else rsum (Nx * Ny) (fun c0 => W0 (pix Ny i j) c0)))%R
      by (apply Rdiv_lt_0_compat; lra). nra. }
  assert (HS: (W (pix Ny i j) (pix Ny i j) * 1 + W (pix Ny i j) (pix Ny (i - 1) j) * 1 <= rsum (Nx * Ny) (fun c => W (pix Ny i j) c * 1))%R).
  { rewrite <- (rsum_delta (Nx * Ny) (pix Ny i j) (fun c => W (pix Ny i j) c * 1)%R) by assumption.
    rewrite <- (rsum_delta (Nx * Ny) (pix Ny (i - 1) j) (fun c => W (pix Ny i j) c * 1)%R) by assumption.
    rewrite <- rsum_plus. apply rsum_le. intros c Hc. assert (H := HG c Hc).
    destruct (Nat.eqb_spec c (pix Ny i j)); destruct (Nat.eqb_spec c (pix Ny (i - 1) j)); try lra. congruence. }
  lra.
Qed.
Example C19_met : deep 2 1 13 6 /\ filtered 2 1 13 4 /\ (pix 13 6 6 < 13 * 13)%nat.
Proof. unfold deep, filtered, pix. lia. Qed.

(* ------------------------------------------------------------------ *)
(** * C20 *)
(** With no PML along x every filter of radius at least 2 raises ValueError, on every grid. *)
Theorem C20_periodic_x_refuted :
  forall Nx Ny design py Rr, (0 < Nx)%nat -> (2 <= Rr)%nat ->
  (exists j, List.In j (filter_range (Z.of_nat Rr) (Z.of_nat Ny) (Z.of_nat py))) ->
  get_W Nx Ny design (0%nat, py) Rr = Raise ValueError.
Proof.
  intros Nx Ny design py Rr HNx HR [j Hj]. unfold get_W; cbn [fst snd].
  assert (HJ := in_filter_range (Z.of_nat Rr) (Z.of_nat Ny) (Z.of_nat py) j ltac:(lia) ltac:(lia) Hj).
  unfold csr_matrix. destruct (forallb _ _) eqn:E; [exfalso|reflexivity].
  rewrite forallb_forall in E.
  set (i := (Z.of_nat Nx - 1)%Z).
  assert (HC: forall jds, List.In 0%Z jds ->
    exists v, List.In (sub2ind (Z.of_nat Ny) (Z.of_nat Nx) j, v) (filter_cols (Z.of_nat Rr) (Z.of_nat Nx) (Z.of_nat Ny) i j jds (Z.of_nat Nx))).
  { induction jds as [|jd t IH]; intro H; [destruct H|]. cbn [filter_cols]. rewrite wrap_N by lia.
    destruct (Z.eq_dec jd 0) as [->|Hne].
    - rewrite Z.add_0_r. rewrite wrap_in by assumption.
      assert (HD: dist (i, j) (Z.of_nat Nx, j) = 1%R).
      { unfold dist, i; cbn [fst snd]. replace ((Z.of_nat Nx - 1 - Z.of_nat Nx) * (Z.of_nat Nx - 1 - Z.of_nat Nx) + (j - j) * (j - j))%Z with 1%Z by ring. apply sqrt_1. }
      rewrite HD. assert (H2: (2 <= IZR (Z.of_nat Rr))%R) by (apply IZR_le; lia).
      destruct (Rlt_dec 0 _); [|lra]. eexists. apply in_or_app. left. left. reflexivity.
    - destruct H as [H|H]; [congruence|]. destruct (IH H) as [v Hv]. exists v. apply in_or_app. right. exact Hv. }
  destruct (HC (zrange (- Z.of_nat Rr) (Z.of_nat Rr + 1)) ltac:(apply in_zrange; lia)) as [v Hv].
  specialize (E (sub2ind (Z.of_nat Ny) i j, (sub2ind (Z.of_nat Ny) (Z.of_nat Nx) j, v))).
  assert (HT: List.In (sub2ind (Z.of_nat Ny) i j, (sub2ind (Z.of_nat Ny) (Z.of_nat Nx) j, v))
     (filter_triplets (Z.of_nat Rr) (Z.of_nat Nx) (Z.of_nat Ny) (Z.of_nat 0) (Z.of_nat py))).
  { apply in_triplets. exists i, j. split; [|split; [exact Hj|split; [reflexivity|]]].
    - unfold filter_range. cbn. apply in_zrange. unfold i; lia.
    - unfold filter_row. apply in_flat_map. exists 1%Z. split; [apply in_zrange; lia|].
      replace (i + 1)%Z with (Z.of_nat Nx) by (unfold i; ring). exact Hv. }
  specialize (E HT). cbn beta iota in E. rewrite !andb_true_iff, !Z.leb_le, !Z.ltb_lt in E. unfold sub2ind in E. nia.
Qed.
(** With a PML along x only, the weights do not depend on the periodic distance alone: the
    diagonal neighbours (i, Ny-1) and (i+1, 0) across the boundary and the diagonal neighbours (i, R) and
    (i+1, R+1) inside have different weights. *)
Theorem C20_periodic_y_refuted :
  forall Nx Ny px Rr W, (0 < px)%nat -> (2 <= Rr)%nat -> (2 * Rr + 2 < Ny)%nat ->
  get_W Nx Ny (fun _ => 1%R) (px, 0%nat) Rr = Ok W ->
  forall i, filtered Rr px Nx i -> filtered Rr px Nx (S i) ->
  (W (pix Ny i (Ny - 1)) (pix Ny (S i) 0) > W (pix Ny i Rr) (pix Ny (S i) (S Rr)))%R.
Proof.
  intros Nx Ny px Rr W Hpx HR HNy HW i Hi HSi.
  apply get_W_form in HW as (W0 & HW0 & E). cbv zeta in E.
  assert (HT := cone_total_pos (Z.of_nat Rr) ltac:(lia)).
  assert (Hrow: forall i' j', filtered Rr px Nx i' -> (j' < Ny)%nat -> rowed Nx Ny px 0 Rr i' j').
  { intros i' j' H1 H2. unfold rowed, filter_range. cbn [Z.of_nat]. destruct (Z.eqb_spec (Z.of_nat px) 0); [lia|].
    destruct (Z.eqb_spec 0 0); [|lia]. rewrite !in_zrange. unfold filtered in H1. lia. }
  assert (HNRM: forall j', (j' < Ny)%nat -> rsum (Nx * Ny) (fun c => W0 (pix Ny (S i) j') c) = cone_total (Z.of_nat Rr)).
  { intros j' Hj'. apply (W_rowsum_cone _ _ _ _ _ _ HW0); try assumption; [apply Hrow; assumption| |]; unfold filtered in HSi; lia. }
  assert (D1: pix Ny i (Ny - 1) <> pix Ny (S i) 0) by (unfold pix; nia).
  assert (D2: pix Ny i Rr <> pix Ny (S i) (S Rr)) by (unfold pix; nia).
  rewrite !E. destruct (Nat.eqb_spec (pix Ny i (Ny - 1)) (pix Ny (S i) 0)); [contradiction|].
  destruct (Nat.eqb_spec (pix Ny i Rr) (pix Ny (S i) (S Rr))); [contradiction|].
  rewrite !HNRM by lia. destruct (Req_EM_T (cone_total (Z.of_nat Rr)) 0); [lra|].
  assert (H2: (2 <= IZR (Z.of_nat Rr))%R) by (apply IZR_le; lia).
  assert (S2: (1 < sqrt 2)%R) by (rewrite <- sqrt_1 at 1; apply sqrt_lt_1; lra).
  assert (S3: (sqrt 2 < 2)%R). { rewrite <- (sqrt_Rsqr 2) at 2 by lra. apply sqrt_lt_1; unfold Rsqr; lra. }
  assert (EA: W0 (pix Ny i Rr) (pix Ny (S i) (S Rr)) = (IZR (Z.of_nat Rr) - sqrt 2)%R).
  { rewrite (W_entry _ _ _ _ _ _ HW0) by (try (apply Hrow; [assumption|lia]); unfold filtered in *; lia).
    replace (Z.of_nat (S i) - Z.of_nat i)%Z with 1%Z by lia. replace (Z.of_nat (S Rr) - Z.of_nat Rr)%Z with 1%Z by lia.
    unfold cone. replace (1 * 1 + 1 * 1)%Z with 2%Z by reflexivity. rewrite Rmax_right; lra. }
  assert (EB: (IZR (Z.of_nat Rr) - 1 <= W0 (pix Ny i (Ny - 1)) (pix Ny (S i) 0))%R).
  { rewrite (W_row _ _ _ _ _ _ HW0) by (try (apply Hrow; [assumption|lia]); lia).
    rewrite filter_row_in by (unfold filtered in *; lia).
    set (F := fun a b : Z => let v := (IZR (Z.of_nat Rr) - sqrt (IZR (a * a + b * b)))%R in
       if Rlt_dec 0 v then (if Z.eqb (fst (sub2ind (Z.of_nat Ny) (Z.of_nat i + a) (wrap (Z.of_nat (Ny - 1) + b) (Z.of_nat Ny)), v)) (Z.of_nat (pix Ny (S i) 0))
           then snd (sub2ind (Z.of_nat Ny) (Z.of_nat i + a) (wrap (Z.of_nat (Ny - 1) + b) (Z.of_nat Ny)), v) else 0%R) else 0%R).
    change (IZR (Z.of_nat Rr) - 1 <= lsum (fun a => lsum (fun b => F a b) (zrange (- Z.of_nat Rr) (Z.of_nat Rr + 1))) (zrange (- Z.of_nat Rr) (Z.of_nat Rr + 1)))%R.
    assert (HF: forall a b, (0 <= F a b)%R).
    { intros a b. unfold F. cbv zeta. cbn [fst snd]. destruct (Rlt_dec 0 _); [|lra]. destruct (Z.eqb _ _); lra. }
    assert (F01: F 0%Z 1%Z = (IZR (Z.of_nat Rr) - 1)%R).
    { unfold F. cbv zeta. cbn [fst snd]. replace (0 * 0 + 1 * 1)%Z with 1%Z by reflexivity. rewrite sqrt_1.
      destruct (Rlt_dec 0 _); [|lra]. replace (Z.of_nat (Ny - 1) + 1)%Z with (Z.of_nat Ny) by lia. rewrite wrap_N by lia.
      destruct (Z.eqb_spec (sub2ind (Z.of_nat Ny) (Z.of_nat i + 0) (Z.of_nat Ny)) (Z.of_nat (pix Ny (S i) 0))) as [|N]; [reflexivity|].
      exfalso. apply N. unfold sub2ind, pix. lia. }
    rewrite <- F01.
    apply Rle_trans with (lsum (fun b => F 0%Z b) (zrange (- Z.of_nat Rr) (Z.of_nat Rr + 1))).
    - apply (lsum_in_le (fun b => F 0%Z b)); [intros; apply HF|]. apply in_zrange; lia.
    - apply (lsum_in_le (fun a => lsum (fun b => F a b) (zrange (- Z.of_nat Rr) (Z.of_nat Rr + 1)))).
      + intros; apply lsum_ge0; intros; apply HF.
      + apply in_zrange; lia. }
  rewrite EA. assert (HI: (0 < 1 / cone_total (Z.of_nat Rr))%R) by (apply Rdiv_lt_0_compat; lra). nra.
Qed.

(** The second case is not vacuous: get_W does return a matrix there. *)
Theorem C20_met :
  forall Nx Ny px Rr design, (0 < px)%nat -> (2 * Rr + 2 < Ny)%nat ->
  exists W, get_W Nx Ny design (px, 0%nat) Rr = Ok W.
Proof.
  intros Nx Ny px Rr design Hpx HNy. unfold get_W; cbn [fst snd].
  unfold csr_matrix. rewrite (proj2 (forallb_forall _ _)); [eexists; reflexivity|].
  intros (r, (c, v)) Hin. apply in_triplets in Hin as (i & j & Hi & Hj & -> & Hin).
  unfold filter_range in Hi, Hj. destruct (Z.eqb_spec (Z.of_nat px) 0); [lia|]. cbn [Z.of_nat Z.eqb] in Hj.
  apply in_zrange in Hi. apply in_zrange in Hj.
  assert (Hc: (0 <= c < Z.of_nat (Nx * Ny))%Z).
  { unfold filter_row in Hin. apply in_flat_map in Hin as (a & Ha & Hin). apply in_zrange in Ha.
    assert (HC: forall jds i2 c v, (0 <= i2 < Z.of_nat Nx - 1)%Z -> (forall b, List.In b jds -> - Z.of_nat Rr <= b <= Z.of_nat Rr)%Z ->
      List.In (c, v) (filter_cols (Z.of_nat Rr) (Z.of_nat Nx) (Z.of_nat Ny) i j jds i2) -> (0 <= c < Z.of_nat (Nx * Ny))%Z).
    { induction jds as [|jd t IH]; intros i2 c' v' Hi2 Hb H; [destruct H|]. cbn [filter_cols] in H.
      rewrite (wrap_in i2) in H by lia. apply in_app_or in H as [H|H].
      - assert (Hj' := Hb jd (or_introl eq_refl)).
        destruct (Rlt_dec 0 _); [|destruct H]. destruct H as [H|[]]. injection H as <- _. unfold sub2ind.
        assert (HW: (0 <= wrap (j + jd) (Z.of_nat Ny) < 2 * Z.of_nat Ny)%Z).
        { unfold wrap. destruct (Z.leb_spec (Z.of_nat Ny) (j + jd)); destruct (Z.ltb_spec (j + jd) 0); lia. }
        nia.
      - eapply IH; [exact Hi2| |exact H]. intros b Hb'. apply Hb; right; assumption. }
    eapply HC; [| |exact Hin]; [lia|]. intros b Hb. apply in_zrange in Hb. lia. }
  unfold sub2ind. rewrite !andb_true_iff, !Z.leb_le, !Z.ltb_lt. nia.
Qed.

(* ------------------------------------------------------------------ *)
(** * C21 *)
Local Open Scope R_scope.
Lemma proj_den eta beta : 0 < beta -> 0 <= eta <= 1 -> 0 < tanh (beta * eta) + tanh (beta * (1 - eta)).
Proof.
  intros Hb He. destruct (Rlt_dec 0 eta) as [H|H].
  - assert (0 < tanh (beta * eta)) by (apply tanh_pos, Rmult_lt_0_compat; lra).
    assert (0 <= tanh (beta * (1 - eta))) by (apply tanh_ge0, Rmult_le_pos; lra). lra.
  - assert (0 <= tanh (beta * eta)) by (apply tanh_ge0, Rmult_le_pos; lra).
    assert (0 < tanh (beta * (1 - eta))) by (apply tanh_pos, Rmult_lt_0_compat; lra). lra.
Qed.
Lemma proj_formula x eta beta : 0 < beta ->
  rhot2rhob x eta beta = sinh (beta * x) / sinh beta * (cosh (beta * (1 - eta)) / cosh (beta * (x - eta))).
Proof.
  intro Hb. unfold rhot2rhob. rewrite !tanh_plus_tanh.
  replace (beta * eta + beta * (x - eta)) with (beta * x) by ring.
  replace (beta * eta + beta * (1 - eta)) with beta by ring.
  assert (H1 := cosh_pos (beta * eta)). assert (H2 := cosh_pos (beta * (x - eta))).
  assert (H3 := cosh_pos (beta * (1 - eta))). assert (H4 := sinh_pos beta Hb).
  field. repeat split; lra.
Qed.
Theorem C21_projection_endpoints_and_monotone :
  forall eta beta, 0 < beta -> 0 <= eta <= 1 ->
    rhot2rhob 0 eta beta = 0 /\ rhot2rhob 1 eta beta = 1 /\
    (forall x y, x < y -> rhot2rhob x eta beta < rhot2rhob y eta beta) /\
    (forall x, 0 <= x <= 1 -> 0 <= rhot2rhob x eta beta <= 1).
Proof.
  intros eta beta Hb He. assert (HD := proj_den eta beta Hb He).
  assert (H0: rhot2rhob 0 eta beta = 0).
  { unfold rhot2rhob. replace (beta * (0 - eta)) with (- (beta * eta)) by ring. rewrite tanh_opp. field; lra. }
  assert (H1: rhot2rhob 1 eta beta = 1) by (unfold rhot2rhob; field; lra).
  assert (HM: forall x y, x < y -> rhot2rhob x eta beta < rhot2rhob y eta beta).
  { intros x y Hxy. unfold rhot2rhob. apply Rmult_lt_compat_r; [apply Rinv_0_lt_compat; assumption|].
    assert (tanh (beta * (x - eta)) < tanh (beta * (y - eta))) by (apply tanh_incr, Rmult_lt_compat_l; lra). lra. }
  repeat split; try assumption.
  - destruct (proj1 H) as [L| <-]; [|lra]. rewrite <- H0. left. apply HM; assumption.
  - destruct (proj2 H) as [L| ->]; [|lra]. rewrite <- H1. left. apply HM; assumption.
Qed.
(** raising the threshold eta lowers the projected density *)
Theorem C21_projection_decreases_with_eta :
  forall eta1 eta2 beta x, 0 < beta -> eta1 < eta2 -> 0 < x < 1 ->
  rhot2rhob x eta2 beta < rhot2rhob x eta1 beta.
Proof.
  intros e1 e2 b x Hb He Hx. rewrite !proj_formula by assumption.
  assert (P1: 0 < sinh (b * x)) by (apply sinh_pos, Rmult_lt_0_compat; lra).
  assert (P2 := sinh_pos b Hb).
  apply Rmult_lt_compat_l; [apply Rdiv_lt_0_compat; assumption|].
  assert (Q1 := cosh_pos (b * (x - e1))). assert (Q2 := cosh_pos (b * (x - e2))).
  assert (HP: cosh (b * (1 - e2)) * cosh (b * (x - e1)) < cosh (b * (1 - e1)) * cosh (b * (x - e2))).
  { set (p := b * (1 - e2)). set (q := b * (x - e1)). set (r := b * (1 - e1)). set (t := b * (x - e2)).
    assert (A1: 2 * (cosh p * cosh q) = cosh (p + q) + cosh (p + - q)) by (rewrite !cosh_plus, cosh_opp, sinh_opp; ring).
    assert (A2: 2 * (cosh r * cosh t) = cosh (r + t) + cosh (r + - t)) by (rewrite !cosh_plus, cosh_opp, sinh_opp; ring).
    assert (E: p + q = r + t) by (unfold p, q, r, t; ring).
    assert (L: cosh (p + - q) < cosh (r + - t)).
    { apply cosh_abs_lt. unfold p, q, r, t.
      replace (b * (1 - e2) + - (b * (x - e1))) with (b * ((1 - x) - (e2 - e1))) by ring.
      replace (b * (1 - e1) + - (b * (x - e2))) with (b * ((1 - x) + (e2 - e1))) by ring.
      rewrite !Rabs_mult. apply Rmult_lt_compat_l; [apply Rabs_pos_lt; lra|].
      rewrite (Rabs_pos_eq (1 - x + (e2 - e1))) by lra. apply Rabs_def1; lra. }
    rewrite E in A1. lra. }
  apply (Rmult_lt_reg_r (cosh (b * (x - e1)) * cosh (b * (x - e2)))); [apply Rmult_lt_0_compat; assumption|].
  replace (cosh (b * (1 - e2)) / cosh (b * (x - e2)) * (cosh (b * (x - e1)) * cosh (b * (x - e2))))
    with (cosh (b * (1 - e2)) * cosh (b * (x - e1))) by (field; lra).
  replace (cosh (b * (1 - e1)) / cosh (b * (x - e1)) * (cosh (b * (x - e1)) * cosh (b * (x - e2))))
    with (cosh (b * (1 - e1)) * cosh (b * (x - e2))) by (field; lra).
  exact HP.
Qed.

(* ------------------------------------------------------------------ *)
(** * C22 *)
Lemma proj_is_derive x eta beta : tanh (beta * eta) + tanh (beta * (1 - eta)) <> 0 ->
  is_derive (fun x => rhot2rhob x eta beta) x (drhob_drhot x eta beta).
Proof.
  intro HD. unfold rhot2rhob, drhob_drhot.
  set (D := tanh (beta * eta) + tanh (beta * (1 - eta))) in *.
  apply (is_derive_ext (fun x => / D * (tanh (beta * eta) + tanh (beta * (x - eta))))).
  { intro t. unfold Rdiv. apply Rmult_comm. }
  evar_last.
  { apply (is_derive_scal (fun x => tanh (beta * eta) + tanh (beta * (x - eta))) x (/ D)).
    apply (is_derive_plus (fun _ => tanh (beta * eta)) (fun x => tanh (beta * (x - eta)))).
    - apply is_derive_const.
    - apply (is_derive_comp tanh (fun x => beta * (x - eta))).
      + apply is_derive_tanh.
      + auto_derive; [exact I|reflexivity]. }
  unfold plus, zero, scal, mult; simpl; unfold mult; simpl. unfold Rdiv. ring.
Qed.
Theorem C22_projection_derivative :
  forall eta beta x, tanh (beta * eta) + tanh (beta * (1 - eta)) <> 0 ->
  derivable_pt_lim (fun x => rhot2rhob x eta beta) x (drhob_drhot x eta beta).
Proof. intros eta beta x H. apply is_derive_Reals, proj_is_derive, H. Qed.
(** the last link of the chain: permittivity against projected density, and the whole chain at one
    filtered density *)
Theorem C22_permittivity_derivative :
  forall eps_m rhob, derivable_pt_lim (fun x => rhob2eps x eps_m) rhob (deps_drhob eps_m).
Proof.
  intros eps_m rhob. apply is_derive_Reals. unfold rhob2eps, deps_drhob. auto_derive; [exact I|ring].
Qed.
Theorem C22_chain_derivative :
  forall eps_m eta beta x, tanh (beta * eta) + tanh (beta * (1 - eta)) <> 0 ->
  derivable_pt_lim (fun x => rhob2eps (rhot2rhob x eta beta) eps_m) x (deps_drhob eps_m * drhob_drhot x eta beta).
Proof.
  intros eps_m eta beta x H.
  apply (derivable_pt_lim_comp (fun x => rhot2rhob x eta beta) (fun y => rhob2eps y eps_m)); [apply C22_projection_derivative, H|apply C22_permittivity_derivative].
Qed.
Example C22_met : forall eta beta, 0 < beta -> 0 <= eta <= 1 -> tanh (beta * eta) + tanh (beta * (1 - eta)) <> 0.
Proof. intros. apply Rgt_not_eq, proj_den; assumption. Qed.

(* ------------------------------------------------------------------ *)
(** * C23 *)
Theorem C23_weak_projection_is_identity :
  forall x eta, filterlim (fun beta => rhot2rhob x eta beta) (at_right 0) (locally x).
Proof.
  intros x eta.
  apply (filterlim_ext_loc (fun b => (sinh (b * x) / b) / (sinh (b * 1) / b) * (cosh (b * (1 - eta)) / cosh (b * (x - eta))))).
  { exists (mkposreal 1 Rlt_0_1). intros b _ Hb. rewrite proj_formula by assumption. rewrite Rmult_1_r.
    assert (H4 := sinh_pos b Hb). assert (H2 := cosh_pos (b * (x - eta))). field. repeat split; lra. }
  assert (L: is_lim (fun b => (sinh (b * x) / b) / (sinh (b * 1) / b) * (cosh (b * (1 - eta)) / cosh (b * (x - eta)))) 0 x).
  { assert (HC: forall c, is_lim (fun b => cosh (b * c)) 0 1).
    { intro c. replace 1 with (cosh (0 * c)). 2:{ rewrite Rmult_0_l. unfold cosh. rewrite Ropp_0, exp_0. field. }
      apply (is_lim_continuity (fun b => cosh (b * c)) 0). apply derivable_continuous_pt. exists (sinh (0 * c) * c).
      apply is_derive_Reals. evar_last. { apply (is_derive_comp cosh (fun b => b * c)); [apply is_derive_cosh|auto_derive; [exact I|reflexivity]]. }
      unfold scal; simpl; unfold mult; simpl. ring. }
    replace (Finite x) with (Rbar_mult (Rbar_div x 1) (Rbar_div 1 1)) by (simpl; f_equal; field).
    apply is_lim_mult.
    - apply is_lim_div; [apply sinh_scaled_lim|apply sinh_scaled_lim|intro H; injection H; lra|exact I].
    - apply is_lim_div; [apply HC|apply HC|intro H; injection H; lra|exact I].
    - exact I. }
  intros P HP. specialize (L P HP). destruct L as [d Hd]. exists d. intros b Hb Hpos.
  apply Hd; [exact Hb|]. apply Rgt_not_eq. exact Hpos.
Qed.
Theorem C23_strong_projection_is_threshold :
  forall x eta, 0 < eta < 1 ->
  (x < eta -> is_lim (fun beta => rhot2rhob x eta beta) p_infty 0) /\
  (x > eta -> is_lim (fun beta => rhot2rhob x eta beta) p_infty 1) /\
  (x = eta -> is_lim (fun beta => rhot2rhob x eta beta) p_infty (1 / 2)).
Proof.
  intros x eta He.
  assert (HP: forall c, 0 < c -> is_lim (fun b => tanh (b * c)) p_infty 1).
  { intros c Hc. apply (is_lim_comp tanh (fun b => b * c) p_infty 1 p_infty).
    - apply tanh_lim_p.
    - evar_last. { apply is_lim_scal_r. apply is_lim_id. } simpl. destruct (Rle_dec 0 c); [|lra].
      destruct (Rle_lt_or_eq_dec 0 c _); [reflexivity|lra].
    - exists 0. intros; discriminate. }
  assert (HM: forall c, c < 0 -> is_lim (fun b => tanh (b * c)) p_infty (-1)).
  { intros c Hc. apply (is_lim_ext (fun b => - tanh (b * - c))).
    { intro b. rewrite <- tanh_opp. f_equal. ring. }
    replace (Finite (-1)) with (Rbar_opp 1) by reflexivity. apply is_lim_opp. apply HP. lra. }
  assert (HZ: is_lim (fun b => tanh (b * (eta - eta))) p_infty 0).
  { apply (is_lim_ext (fun _ => 0)); [|apply is_lim_const]. intro b. rewrite Rminus_diag_eq, Rmult_0_r, tanh_0' by reflexivity. reflexivity. }
  assert (HG: forall l : R, is_lim (fun b => tanh (b * (x - eta))) p_infty l ->
     is_lim (fun beta => rhot2rhob x eta beta) p_infty ((1 + l) / 2)).
  { intros l Hl. unfold rhot2rhob. replace (Finite ((1 + l) / 2)) with (Rbar_div (Rbar_plus 1 l) (Rbar_plus 1 1)) by (simpl; f_equal; field).
    apply is_lim_div.
    - eapply is_lim_plus; [apply HP; lra|exact Hl|reflexivity].
    - eapply is_lim_plus; [apply HP; lra|apply HP; lra|reflexivity].
    - intro H; injection H; lra.
    - exact I. }
  split; [|split]; intro H.
  - replace 0 with ((1 + -1) / 2) by field. apply HG, HM. lra.
  - assert (A: (1 + 1) / 2 = 1) by field. rewrite <- A. apply HG. apply HP. lra.
  - subst x. replace (1 / 2) with ((1 + 0) / 2) by field. apply HG, HZ.
Qed.

(* ------------------------------------------------------------------ *)
(** * C24 *)
Theorem C24_density_permittivity_roundtrip :
  forall eps_m, eps_m <> 1 ->
  (forall eps, rhob2eps (eps2rho eps eps_m) eps_m = eps) /\
  (forall rho, eps2rho (rhob2eps rho eps_m) eps_m = rho) /\
  (1 < eps_m -> (forall rho, 0 <= rho <= 1 <-> 1 <= rhob2eps rho eps_m <= eps_m) /\
                (forall eps, 1 <= eps <= eps_m <-> 0 <= eps2rho eps eps_m <= 1)).
Proof.
  intros m Hm. assert (R1: forall eps, rhob2eps (eps2rho eps m) m = eps) by (intro; unfold rhob2eps, eps2rho; field; lra).
  assert (R2: forall rho, eps2rho (rhob2eps rho m) m = rho) by (intro; unfold rhob2eps, eps2rho; field; lra).
  assert (R3: 1 < m -> forall rho, 0 <= rho <= 1 <-> 1 <= rhob2eps rho m <= m).
  { intros Hm1 rho. unfold rhob2eps. split; intro H; split; nra. }
  split; [exact R1|]. split; [exact R2|]. intro Hm1. split; [apply R3; assumption|].
  intro eps. rewrite <- (R1 eps) at 1 2. symmetry. apply R3; assumption.
Qed.

(* ------------------------------------------------------------------ *)
(** * C25 *)
Lemma rho2rhot_rId N rho k : (k < N)%nat -> rho2rhot N rho rId k = rho k.
Proof.
  intro Hk. unfold rho2rhot, rmv, rId. rewrite (rsum_single _ k); [rewrite Nat.eqb_refl; ring|assumption|].
  intros c _ Hc. destruct (Nat.eqb_spec k c); [congruence|ring].
Qed.
Theorem C25_permittivity_in_range :
  forall N rho eps_m eta beta, 0 < beta -> 0 <= eta <= 1 -> 1 <= eps_m ->
  forall k, (k < N)%nat ->
  let eps := rho2eps N rho eps_m rId eta beta in
  (0 <= rho k <= 1 -> 1 <= eps k <= eps_m) /\ (rho k = 0 -> eps k = 1) /\ (rho k = 1 -> eps k = eps_m) /\
  (1 < eps_m -> 0 <= rho k <= 1 -> (eps k = 1 <-> rho k = 0) /\ (eps k = eps_m <-> rho k = 1)).
Proof.
  intros N rho m eta beta Hb He Hm k Hk eps. unfold eps, rho2eps. rewrite rho2rhot_rId by assumption. unfold rhob2eps.
  destruct (C21_projection_endpoints_and_monotone eta beta Hb He) as (P0 & P1 & PM & PB).
  assert (HE: 0 <= rho k <= 1 -> 1 <= 1 + rhot2rhob (rho k) eta beta * (m - 1) <= m).
  { intro H. specialize (PB _ H). split; nra. }
  split; [exact HE|]. split; [intro E; rewrite E, P0; ring|]. split; [intro E; rewrite E, P1; ring|].
  intros Hm1 Hr. split; split; intro H.
  - destruct (Rle_lt_or_eq_dec 0 (rho k) (proj1 Hr)) as [L|]; [|auto]. specialize (PM _ _ L). rewrite P0 in PM. nra.
  - rewrite H, P0; ring.
  - destruct (Rle_lt_or_eq_dec (rho k) 1 (proj2 Hr)) as [L|]; [|auto]. specialize (PM _ _ L). rewrite P1 in PM. nra.
  - rewrite H, P1; ring.
Qed.
