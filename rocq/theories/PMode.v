(** Lemmas about slices, flux_probe and mode sources. *)
From Coq Require Import Reals Lra Lia List ZArith Arith Bool String.
From Coquelicot Require Import Coquelicot.
From Verif Require Import Base Linear MCore MSim MFilter MOpt MMode Spec PCore PSim.
Import ListNotations.
Local Open Scope string_scope.

Lemma slice_bound_in N i : (0 <= i <= Z.of_nat N)%Z -> slice_bound N i = Z.to_nat i.
Proof. intro H. unfold slice_bound. destruct (Z.ltb_spec i 0); [lia|]. f_equal; lia. Qed.
Lemma slice_bound_neg N i : (i < 0)%Z -> slice_bound N i = Z.to_nat (i + Z.of_nat N).
Proof. intro H. unfold slice_bound. destruct (Z.ltb_spec i 0); [reflexivity|lia]. Qed.
Lemma slice_bound_ge N i : (Z.of_nat N <= i)%Z -> slice_bound N i = N.
Proof. intro H. unfold slice_bound. destruct (Z.ltb_spec i 0); [lia|]. lia. Qed.
Lemma slice_bound_le N i : (slice_bound N i <= N)%nat.
Proof. unfold slice_bound. destruct (Z.ltb_spec i 0); lia. Qed.

Lemma bidx_small n i : (i < n)%nat -> bidx n i = i.
Proof. unfold bidx. destruct (Nat.eqb_spec n 1); lia. Qed.
Lemma bdim_same n : bdim n n = Some n.
Proof. unfold bdim. rewrite Nat.eqb_refl. reflexivity. Qed.

Lemma div_mod_small k m : (k < m)%nat -> (k / m)%nat = O /\ (k mod m)%nat = k.
Proof. intro H. split; [apply Nat.div_small|apply Nat.mod_small]; assumption. Qed.
Lemma div_mod_second k m : (k < m)%nat -> ((m + k) / m)%nat = 1%nat /\ ((m + k) mod m)%nat = k.
Proof.
  intro H. assert (E: (m + k = k + 1 * m)%nat) by lia. rewrite E. split.
  - rewrite Nat.div_add by lia. rewrite Nat.div_small by assumption. reflexivity.
  - rewrite Nat.mod_add by lia. apply Nat.mod_small; assumption.
Qed.
Lemma flat2 i m j : (j < m)%nat -> ((i * m + j) / m)%nat = i /\ ((i * m + j) mod m)%nat = j.
Proof.
  intro H. rewrite (Nat.add_comm (i * m)). split.
  - rewrite Nat.div_add by lia. rewrite Nat.div_small by assumption. reflexivity.
  - rewrite Nat.mod_add by lia. apply Nat.mod_small; assumption.
Qed.

(** an entry of a slice *)
Lemma nd_slice_at {T} (a : nd T) i0 i1 j0 j1 i j :
  let r0 := slice_bound (nd_nx a) i0 in let c0 := slice_bound (nd_ny a) j0 in
  (j < slice_bound (nd_ny a) j1 - c0)%nat ->
  nd_at (nd_slice a i0 i1 j0 j1) i j = nd_at a (r0 + i) (c0 + j).
Proof.
  intros r0 c0 H. unfold nd_at at 1. cbn [nd_slice nd_ny nd_buf].
  fold r0 c0. destruct (flat2 i _ j H) as [-> ->]. reflexivity.
Qed.

(** The averaged field on a line: x-normal *)
Lemma average_x_at (a : nd C) j : nd_nx a = 2%nat -> (j < nd_ny a)%nat ->
  nd_at (nd_average AxX a) 0 j = ((nd_at a 1 j + nd_at a 0 j) / RtoC 2)%C.
Proof.
  intros Hx Hj. unfold nd_average, nd_at, grid_average, roll1; cbn [nd_buf nd_ny]. rewrite Hx.
  destruct (flat2 0 _ j Hj) as [-> ->]. reflexivity.
Qed.
Lemma average_y_at (a : nd C) i : nd_ny a = 2%nat -> 
  nd_at (nd_average AxY a) i 0 = ((nd_at a i 1 + nd_at a i 0) / RtoC 2)%C.
Proof.
  intros Hx. unfold nd_average, nd_at, grid_average, roll1; cbn [nd_buf nd_ny]. rewrite Hx.
  destruct (flat2 i 2 0 ltac:(lia)) as [-> ->]. reflexivity.
Qed.

(** what flux_probe adds up: pixel (i,j) of an x-normal or y-normal line *)
Definition line_power (p : pol) (x_normal : bool) (Ny : nat) (Zf Ff : vec) (i j : nat) : R :=
  if x_normal
  then poynting p true ((Zf (pix Ny (i + 1) j) + Zf (pix Ny i j)) / RtoC 2)%C (Ff (pix Ny i j))
  else poynting p false ((Zf (pix Ny i (j + 1)) + Zf (pix Ny i j)) / RtoC 2)%C (Ff (pix Ny i j)).

(** x-normal line strictly inside the domain *)
Lemma flux_x_inside (s : sim) (nl : bool) Zf Ff c0 c1 w lo hi :
  (if nl then s_fields_nl s else s_fields s) (pol_comp (s_pol s)) = Some Zf ->
  (if nl then s_fields_nl s else s_fields s) (comp2 (s_pol s)) = Some Ff ->
  Z.quot (2 * c1 - w) 2 = Z.of_nat lo -> Z.quot (2 * c1 + w) 2 = Z.of_nat hi ->
  (0 <= c0)%Z -> (c0 + 1 < Z.of_nat (s_Nx s))%Z -> (lo <= hi)%nat -> (hi < s_Ny s)%nat ->
  flux_probe "x" (c0, c1) w nl s =
  Ok (s_dl s * rsum (hi - lo) (fun t => line_power (s_pol s) true (s_Ny s) Zf Ff (Z.to_nat c0) (lo + t)))%R.
Proof.
  intros HZ HF Hlo Hhi H0 H1 Hlh Hh. unfold flux_probe, line_inds.
  change (String.eqb "x" "x") with true. cbn [fst snd]. rewrite Hlo, Hhi, HZ, HF.
  set (arr := fun v : vec => mkNd (s_Nx s) (s_Ny s) v).
  set (m := (hi - lo)%nat).
  set (A1 := nd_slice (arr Zf) c0 (c0 + 1 + 1) (Z.of_nat lo) (Z.of_nat hi + 1)).
  set (A2 := nd_slice (arr Ff) c0 (c0 + 1) (Z.of_nat lo) (Z.of_nat hi)).
  assert (E1: nd_nx A1 = 2%nat /\ nd_ny A1 = S m).
  { unfold A1; cbn [nd_slice nd_nx nd_ny arr]. rewrite !slice_bound_in by lia. split; lia. }
  assert (E2: nd_nx A2 = 1%nat /\ nd_ny A2 = m).
  { unfold A2; cbn [nd_slice nd_nx nd_ny arr]. rewrite !slice_bound_in by lia. split; lia. }
  set (A3 := nd_drop_last (nd_average AxX A1)).
  assert (E3: nd_nx A3 = 1%nat /\ nd_ny A3 = m).
  { unfold A3, nd_drop_last, nd_average; cbn [nd_slice nd_nx nd_ny].
    rewrite !(slice_bound_in _ 0) by lia. rewrite !(slice_bound_neg _ (-1)) by lia. lia. }
  unfold nd_zip. rewrite (proj1 E2), (proj2 E2), (proj1 E3), (proj2 E3), !bdim_same.
  do 2 f_equal. unfold nd_sum, nd_size; cbn [nd_nx nd_ny nd_buf]. rewrite Nat.mul_1_l.
  apply rsum_ext; intros t Ht. destruct (div_mod_small t m Ht) as [-> ->].
  rewrite !(bidx_small 1) by lia. rewrite !bidx_small by assumption.
  unfold line_power. f_equal.
  - unfold A3, nd_drop_last. rewrite nd_slice_at.
    2:{ cbn [nd_average nd_ny]. rewrite (slice_bound_in _ 0), (slice_bound_neg _ (-1)) by lia. lia. }
    cbn [nd_average nd_nx nd_ny]. rewrite !slice_bound_in by lia. cbn [Z.to_nat Nat.add].
    rewrite average_x_at by lia. unfold A1. rewrite !nd_slice_at.
    2,3: cbn [arr nd_ny]; rewrite !slice_bound_in by lia; lia.
    cbn [arr nd_nx nd_ny]. rewrite !slice_bound_in by lia. rewrite Nat2Z.id, Nat.add_0_r. reflexivity.
  - unfold A2. rewrite nd_slice_at.
    2: cbn [arr nd_ny]; rewrite !slice_bound_in by lia; lia.
    cbn [arr nd_nx nd_ny]. rewrite !slice_bound_in by lia. rewrite Nat2Z.id, Nat.add_0_r. reflexivity.
Qed.

(** y-normal line strictly inside the domain *)
Lemma flux_y_inside (s : sim) (nl : bool) Zf Ff c0 c1 w lo hi :
  (if nl then s_fields_nl s else s_fields s) (pol_comp (s_pol s)) = Some Zf ->
  (if nl then s_fields_nl s else s_fields s) (comp1 (s_pol s)) = Some Ff ->
  Z.quot (2 * c0 - w) 2 = Z.of_nat lo -> Z.quot (2 * c0 + w) 2 = Z.of_nat hi ->
  (0 <= c1)%Z -> (c1 + 1 < Z.of_nat (s_Ny s))%Z -> (lo <= hi)%nat -> (hi < s_Nx s)%nat ->
  flux_probe "y" (c0, c1) w nl s =
  Ok (s_dl s * rsum (hi - lo) (fun t => line_power (s_pol s) false (s_Ny s) Zf Ff (lo + t) (Z.to_nat c1)))%R.
Proof.
  intros HZ HF Hlo Hhi H0 H1 Hlh Hh. unfold flux_probe, line_inds.
  change (String.eqb "y" "x") with false. change (String.eqb "y" "y") with true. cbn [fst snd]. rewrite Hlo, Hhi, HZ, HF.
  set (arr := fun v : vec => mkNd (s_Nx s) (s_Ny s) v).
  set (m := (hi - lo)%nat).
  set (A1 := nd_slice (arr Zf) (Z.of_nat lo) (Z.of_nat hi + 1) c1 (c1 + 1 + 1)).
  set (A2 := nd_slice (arr Ff) (Z.of_nat lo) (Z.of_nat hi) c1 (c1 + 1)).
  assert (E1: nd_nx A1 = S m /\ nd_ny A1 = 2%nat).
  { unfold A1; cbn [nd_slice nd_nx nd_ny arr]. rewrite !slice_bound_in by lia. split; lia. }
  assert (E2: nd_nx A2 = m /\ nd_ny A2 = 1%nat).
  { unfold A2; cbn [nd_slice nd_nx nd_ny arr]. rewrite !slice_bound_in by lia. split; lia. }
  set (A3 := nd_drop_last (nd_average AxY A1)).
  assert (E3: nd_nx A3 = m /\ nd_ny A3 = 1%nat).
  { unfold A3, nd_drop_last, nd_average; cbn [nd_slice nd_nx nd_ny].
    rewrite !(slice_bound_in _ 0) by lia. rewrite !(slice_bound_neg _ (-1)) by lia. lia. }
  unfold nd_zip. rewrite (proj1 E2), (proj2 E2), (proj1 E3), (proj2 E3), !bdim_same.
  do 2 f_equal. unfold nd_sum, nd_size; cbn [nd_nx nd_ny nd_buf]. rewrite Nat.mul_1_r.
  apply rsum_ext; intros t Ht. rewrite Nat.div_1_r, Nat.mod_1_r.
  rewrite !(bidx_small 1) by lia. rewrite !bidx_small by assumption.
  unfold line_power. f_equal.
  - unfold A3, nd_drop_last. rewrite nd_slice_at.
    2:{ cbn [nd_average nd_ny]. rewrite (slice_bound_in _ 0), (slice_bound_neg _ (-1)) by lia. lia. }
    cbn [nd_average nd_nx nd_ny]. rewrite !slice_bound_in by lia. cbn [Z.to_nat Nat.add].
    rewrite average_y_at by lia. unfold A1. rewrite !nd_slice_at.
    2,3: cbn [arr nd_ny]; rewrite !slice_bound_in by lia; lia.
    cbn [arr nd_nx nd_ny]. rewrite !slice_bound_in by lia. rewrite Nat2Z.id, Nat.add_0_r. reflexivity.
  - unfold A2. rewrite nd_slice_at.
    2: cbn [arr nd_ny]; rewrite !slice_bound_in by lia; lia.
    cbn [arr nd_nx nd_ny]. rewrite !slice_bound_in by lia. rewrite Nat2Z.id, Nat.add_0_r. reflexivity.
Qed.
