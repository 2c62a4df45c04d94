(** Lemmas about the model of derivatives.py, pml.py, linalg.py. *)
From Coq Require Import Reals Lra Lia List ZArith Arith Bool String.
From Coquelicot Require Import Coquelicot.
From Verif Require Import Base Linear MCore Spec.
Import ListNotations.

(* ------------------------------------------------------------------ *)
(** ** constants *)
Lemma EPSILON_0_pos : (0 < EPSILON_0)%R.
Proof. unfold EPSILON_0. apply Rdiv_lt_0_compat; [lra|apply pow_lt; lra]. Qed.
Lemma MU_0_pos : (0 < MU_0)%R.
Proof. unfold MU_0. apply Rdiv_lt_0_compat; [lra|apply pow_lt; lra]. Qed.
Lemma ETA_0_pos : (0 < ETA_0)%R.
Proof. unfold ETA_0. apply sqrt_lt_R0. apply Rdiv_lt_0_compat; [apply MU_0_pos|apply EPSILON_0_pos]. Qed.

(* ------------------------------------------------------------------ *)
(** ** stencils *)

Definition dfwd (n : nat) : mat := sp_diags [(-1, 0%Z); (1, 1%Z); (1, (- Z.of_nat n + 1)%Z)]%R.
Definition dbwd (n : nat) : mat := sp_diags [(1, 0%Z); (-1, (-1)%Z); (-1, (Z.of_nat n - 1)%Z)]%R.

Lemma next_lt N i : (i < N)%nat -> (next N i < N)%nat.
Proof. intro H; unfold next; destruct (Nat.eqb_spec (S i) N); lia. Qed.
Lemma prev_lt N i : (i < N)%nat -> (prev N i < N)%nat.
Proof. intro H; unfold prev; destruct i; lia. Qed.
Lemma prev_next N i : (i < N)%nat -> prev N (next N i) = i.
Proof. intro H; unfold next; destruct (Nat.eqb_spec (S i) N); simpl; lia. Qed.
Lemma next_prev N i : (i < N)%nat -> next N (prev N i) = i.
Proof.
  intro H; unfold next, prev; destruct i.
  - destruct (Nat.eqb_spec (S (N-1)) N); lia.
  - destruct (Nat.eqb_spec (S i) N); lia.
Qed.
Lemma next_neq N i : (2 <= N)%nat -> (i < N)%nat -> next N i <> i.
Proof. intros H1 H2; unfold next; destruct (Nat.eqb_spec (S i) N); lia. Qed.
Lemma prev_neq N i : (2 <= N)%nat -> (i < N)%nat -> prev N i <> i.
Proof. intros H1 H2; unfold prev; destruct i; lia. Qed.

Lemma dfwd_entry n i c : (2 <= n)%nat -> (i < n)%nat -> (c < n)%nat ->
  dfwd n i c = if Nat.eqb c i then RtoC (-1) else if Nat.eqb c (next n i) then RtoC 1 else RtoC 0.
Proof.
  intros Hn Hi Hc. unfold dfwd, sp_diags, next; cbn [fold_right fst snd].
  destruct (Z.eqb_spec (Z.of_nat c - Z.of_nat i) 0);
  destruct (Z.eqb_spec (Z.of_nat c - Z.of_nat i) 1);
  destruct (Z.eqb_spec (Z.of_nat c - Z.of_nat i) (- Z.of_nat n + 1));
  destruct (Nat.eqb_spec c i); destruct (Nat.eqb_spec (S i) n);
  try (exfalso; lia);
  repeat match goal with |- context [Nat.eqb ?a ?b] => destruct (Nat.eqb_spec a b) end;
  try (exfalso; lia); cring.
Qed.
Lemma dbwd_dfwd n r c : (2 <= n)%nat -> dbwd n r c = (- dfwd n c r)%C.
Proof.
  intro Hn. unfold dfwd, dbwd, sp_diags; simpl.
  destruct (Z.eqb_spec (Z.of_nat c - Z.of_nat r) 0); destruct (Z.eqb_spec (Z.of_nat r - Z.of_nat c) 0); try lia;
  destruct (Z.eqb_spec (Z.of_nat c - Z.of_nat r) (-1)); destruct (Z.eqb_spec (Z.of_nat r - Z.of_nat c) 1); try lia;
  destruct (Z.eqb_spec (Z.of_nat c - Z.of_nat r) (Z.of_nat n - 1));
  destruct (Z.eqb_spec (Z.of_nat r - Z.of_nat c) (- Z.of_nat n + 1)); try lia; cring.
Qed.
Lemma dbwd_entry n i c : (2 <= n)%nat -> (i < n)%nat -> (c < n)%nat ->
  dbwd n i c = if Nat.eqb c i then RtoC 1 else if Nat.eqb c (prev n i) then RtoC (-1) else RtoC 0.
Proof.
  intros Hn Hi Hc. rewrite dbwd_dfwd, dfwd_entry by assumption.
  rewrite (Nat.eqb_sym i c).
  destruct (Nat.eqb_spec c i); [cring|].
  destruct (Nat.eqb_spec i (next n c)) as [E|E]; destruct (Nat.eqb_spec c (prev n i)) as [E'|E']; try cring.
  - exfalso; apply E'. rewrite E, prev_next; auto.
  - exfalso; apply E. rewrite E', next_prev; auto.
Qed.
Lemma dfwd_sum n i u : (2 <= n)%nat -> (i < n)%nat ->
  csum n (fun c => (dfwd n i c * u c)%C) = (u (next n i) - u i)%C.
Proof.
  intros Hn Hi.
  assert (next n i < n)%nat by (apply next_lt; assumption).
  assert (next n i <> i) by (apply next_neq; assumption).
  rewrite (csum_double n i (next n i)); try assumption; try lia.
  - rewrite !dfwd_entry by assumption. rewrite !Nat.eqb_refl.
    destruct (Nat.eqb_spec (next n i) i); [lia|]. cring.
  - intros k Hk H1 H2. rewrite dfwd_entry by assumption.
    destruct (Nat.eqb_spec k i); [lia|]. destruct (Nat.eqb_spec k (next n i)); [lia|]. ring.
Qed.
Lemma dbwd_sum n i u : (2 <= n)%nat -> (i < n)%nat ->
  csum n (fun c => (dbwd n i c * u c)%C) = (u i - u (prev n i))%C.
Proof.
  intros Hn Hi.
  assert (prev n i < n)%nat by (apply prev_lt; assumption).
  assert (prev n i <> i) by (apply prev_neq; assumption).
  rewrite (csum_double n i (prev n i)); try assumption; try lia.
  - rewrite !dbwd_entry by assumption. rewrite !Nat.eqb_refl.
    destruct (Nat.eqb_spec (prev n i) i); [lia|]. cring.
  - intros k Hk H1 H2. rewrite dbwd_entry by assumption.
    destruct (Nat.eqb_spec k i); [lia|]. destruct (Nat.eqb_spec k (prev n i)); [lia|]. ring.
Qed.

(** kron with the identity acts along one axis *)
Lemma kron_x n m D v i j : (i < n)%nat -> (j < m)%nat ->
  mv (n * m) (sp_kron m D sp_eye) v (i * m + j)%nat
  = csum n (fun c => (D i c * v (c * m + j)%nat)%C).
Proof.
  intros Hi Hj. unfold mv. rewrite csum_flat. apply csum_ext; intros c Hc.
  rewrite (csum_single m j); try assumption.
  - unfold sp_kron, sp_eye, mId. rewrite !flat_div, !flat_mod, Nat.eqb_refl by assumption. ring.
  - intros k Hk Hne. unfold sp_kron, sp_eye, mId. rewrite !flat_mod by assumption.
    destruct (Nat.eqb_spec j k); [congruence|ring].
Qed.
Lemma kron_y n m D v i j : (i < n)%nat -> (j < m)%nat ->
  mv (n * m) (sp_kron m sp_eye D) v (i * m + j)%nat
  = csum m (fun c => (D j c * v (i * m + c)%nat)%C).
Proof.
  intros Hi Hj. unfold mv. rewrite csum_flat. rewrite (csum_single n i); try assumption.
  - apply csum_ext; intros c Hc. unfold sp_kron, sp_eye, mId.
    rewrite !flat_div, !flat_mod, Nat.eqb_refl by assumption. ring.
  - intros k Hk Hne. apply csum_0; intros c Hc. unfold sp_kron, sp_eye, mId.
    rewrite !flat_div by assumption. destruct (Nat.eqb_spec i k); [congruence|ring].
Qed.

Lemma ltb_true n : (2 <= n)%nat -> Nat.ltb 1 n = true.
Proof. intro H; apply Nat.ltb_lt; lia. Qed.

Lemma RtoC_inv_mult d z : d <> 0%R -> (RtoC (1 / d) * z)%C = (z / RtoC d)%C.
Proof.
  intro H. rewrite RtoC_div by assumption. field. apply RtoC_neq0; assumption.
Qed.

Section Stencils.
Variables (dx dy : R) (Nx Ny : nat).
Hypothesis (Hdx : dx <> 0%R) (Hdy : dy <> 0%R).
Notation M := (Nx * Ny)%nat.

Lemma Dxf_stencil v i j : (2 <= Nx)%nat -> (i < Nx)%nat -> (j < Ny)%nat ->
  mv M (createDws AxX Fwd dx dy Nx Ny) v (pix Ny i j) = diff_xf dx Nx Ny v i j.
Proof.
  intros HN Hi Hj. unfold createDws. rewrite ltb_true by assumption. rewrite mv_mscal.
  unfold pix. rewrite kron_x by assumption. fold (dfwd Nx).
  rewrite (dfwd_sum Nx i (fun c => v (c * Ny + j)%nat)) by assumption.
  unfold diff_xf, pix. apply RtoC_inv_mult; assumption.
Qed.
Lemma Dxb_stencil v i j : (2 <= Nx)%nat -> (i < Nx)%nat -> (j < Ny)%nat ->
  mv M (createDws AxX Bwd dx dy Nx Ny) v (pix Ny i j) = diff_xb dx Nx Ny v i j.
Proof.
  intros HN Hi Hj. unfold createDws. rewrite ltb_true by assumption. rewrite mv_mscal.
  unfold pix. rewrite kron_x by assumption. fold (dbwd Nx).
  rewrite (dbwd_sum Nx i (fun c => v (c * Ny + j)%nat)) by assumption.
  unfold diff_xb, pix. apply RtoC_inv_mult; assumption.
Qed.
Lemma Dyf_stencil v i j : (2 <= Ny)%nat -> (i < Nx)%nat -> (j < Ny)%nat ->
  mv M (createDws AxY Fwd dx dy Nx Ny) v (pix Ny i j) = diff_yf dy Nx Ny v i j.
Proof.
  intros HN Hi Hj. unfold createDws. rewrite ltb_true by assumption. rewrite mv_mscal.
  unfold pix. rewrite kron_y by assumption. fold (dfwd Ny).
  rewrite (dfwd_sum Ny j (fun c => v (i * Ny + c)%nat)) by assumption.
  unfold diff_yf, pix. apply RtoC_inv_mult; assumption.
Qed.
Lemma Dyb_stencil v i j : (2 <= Ny)%nat -> (i < Nx)%nat -> (j < Ny)%nat ->
  mv M (createDws AxY Bwd dx dy Nx Ny) v (pix Ny i j) = diff_yb dy Nx Ny v i j.
Proof.
  intros HN Hi Hj. unfold createDws. rewrite ltb_true by assumption. rewrite mv_mscal.
  unfold pix. rewrite kron_y by assumption. fold (dbwd Ny).
  rewrite (dbwd_sum Ny j (fun c => v (i * Ny + c)%nat)) by assumption.
  unfold diff_yb, pix. apply RtoC_inv_mult; assumption.
Qed.
End Stencils.

(** Df = -Db^T entrywise when the axis has at least two pixels; both are the identity
    otherwise. *)
Definition sgn_axis (w : axis) (Nx Ny : nat) : C :=
  match w with AxX => if Nat.ltb 1 Nx then (- RtoC 1)%C else RtoC 1
             | AxY => if Nat.ltb 1 Ny then (- RtoC 1)%C else RtoC 1 end.
Lemma Dws_transpose w dx dy Nx Ny r c :
  createDws w Fwd dx dy Nx Ny r c = (sgn_axis w Nx Ny * createDws w Bwd dx dy Nx Ny c r)%C.
Proof.
  assert (eye: forall a b, mId a b = mId b a).
  { intros a b; unfold mId; rewrite Nat.eqb_sym; reflexivity. }
  destruct w; unfold createDws, sgn_axis.
  - destruct (Nat.ltb_spec 1 Nx).
    + unfold mscal, sp_kron, sp_eye. fold (dfwd Nx) (dbwd Nx).
      rewrite (dbwd_dfwd Nx) by lia. rewrite (eye (r mod Ny)%nat). ring.
    + unfold sp_eye. rewrite (eye r c). ring.
  - destruct (Nat.ltb_spec 1 Ny).
    + unfold mscal, sp_kron, sp_eye. fold (dfwd Ny) (dbwd Ny).
      rewrite (dbwd_dfwd Ny) by lia. rewrite (eye (r / Ny)%nat). ring.
    + unfold sp_eye. rewrite (eye r c). ring.
Qed.

(** the x operators keep j, the y operators keep i *)
Lemma Dws_local_x s dx dy Nx Ny (f : nat -> C) r c :
  (f (r mod Ny)%nat * createDws AxX s dx dy Nx Ny r c = f (c mod Ny)%nat * createDws AxX s dx dy Nx Ny r c)%C.
Proof.
  assert (H: r mod Ny = c mod Ny \/ createDws AxX s dx dy Nx Ny r c = RtoC 0).
  { unfold createDws. destruct (Nat.ltb 1 Nx).
    - destruct (Nat.eq_dec (r mod Ny) (c mod Ny)) as [|Hne]; [left; assumption|right].
      destruct s; unfold mscal, sp_kron, sp_eye, mId;
      destruct (Nat.eqb_spec (r mod Ny) (c mod Ny)); try contradiction; ring.
    - unfold sp_eye, mId. destruct (Nat.eqb_spec r c) as [->|]; auto. }
  destruct H as [->| ->]; ring.
Qed.
Lemma Dws_local_y s dx dy Nx Ny (f : nat -> C) r c :
  (f (r / Ny)%nat * createDws AxY s dx dy Nx Ny r c = f (c / Ny)%nat * createDws AxY s dx dy Nx Ny r c)%C.
Proof.
  assert (H: (r / Ny = c / Ny)%nat \/ createDws AxY s dx dy Nx Ny r c = RtoC 0).
  { unfold createDws. destruct (Nat.ltb 1 Ny).
    - destruct (Nat.eq_dec (r / Ny) (c / Ny)) as [|Hne]; [left; assumption|right].
      destruct s; unfold mscal, sp_kron, sp_eye, mId;
      destruct (Nat.eqb_spec (r / Ny) (c / Ny)); try contradiction; ring.
    - unfold sp_eye, mId. destruct (Nat.eqb_spec r c) as [->|]; auto. }
  destruct H as [->| ->]; ring.
Qed.

Lemma sp_diags_conj l r c : Cconj (sp_diags l r c) = sp_diags l r c.
Proof.
  unfold sp_diags. induction l as [|[v o] l IH]; simpl; [cring|].
  rewrite Cconj_plus, IH. destruct (Z.eqb _ _); rewrite Cconj_RtoC; reflexivity.
Qed.
Lemma mId_conj r c : Cconj (mId r c) = mId r c.
Proof. unfold mId; destruct (Nat.eqb r c); apply Cconj_RtoC. Qed.
Lemma Dws_real w s dx dy Nx Ny r c :
  Cconj (createDws w s dx dy Nx Ny r c) = createDws w s dx dy Nx Ny r c.
Proof.
  destruct w; unfold createDws.
  - destruct (Nat.ltb 1 Nx); [|apply mId_conj].
    destruct s; unfold mscal, sp_kron, sp_eye;
    rewrite !Cconj_mult, Cconj_RtoC, sp_diags_conj, mId_conj; reflexivity.
  - destruct (Nat.ltb 1 Ny); [|apply mId_conj].
    destruct s; unfold mscal, sp_kron, sp_eye;
    rewrite !Cconj_mult, Cconj_RtoC, sp_diags_conj, mId_conj; reflexivity.
Qed.

(* ------------------------------------------------------------------ *)
(** ** PML factors *)

Lemma sig_w_ge0 l dw : (0 < dw)%R -> (0 <= l)%R -> (0 <= sig_w l dw)%R.
Proof.
  intros Hd Hl. unfold sig_w. apply Rmult_le_pos.
  - assert (0 < ETA_0)%R by apply ETA_0_pos.
    replace (- (4 + 1) * -12)%R with 60%R by ring.
    apply Rlt_le, Rdiv_lt_0_compat; [lra|]. apply Rmult_lt_0_compat; lra.
  - apply pow_le. apply Rle_div_r; [assumption|]. lra.
Qed.
Lemma sig_w_even l dw : sig_w l dw = (60 / (2 * ETA_0 * dw) * (l / dw) ^ 4)%R.
Proof. unfold sig_w. f_equal. f_equal. ring. Qed.
Lemma sig_w_nonneg l dw : (0 < dw)%R -> (0 <= sig_w l dw)%R.
Proof.
  intros Hd. rewrite sig_w_even. apply Rmult_le_pos.
  - assert (0 < ETA_0)%R by apply ETA_0_pos.
    apply Rlt_le, Rdiv_lt_0_compat; [lra|]. apply Rmult_lt_0_compat; lra.
  - replace ((l/dw)^4)%R with (((l/dw)^2)^2)%R by ring. apply pow2_ge_0.
Qed.
Lemma Sfac_eq l dw omega L0 : (0 < omega)%R -> (0 < L0)%R ->
  Sfac l dw omega L0 = (1, - (sig_w l dw / (omega * EPSILON_0 * L0)))%R.
Proof.
  intros Ho HL. assert (0 < EPSILON_0)%R by apply EPSILON_0_pos.
  assert (Hne: (omega * EPSILON_0 * L0 <> 0)%R).
  { apply Rgt_not_eq. apply Rmult_lt_0_compat; [apply Rmult_lt_0_compat|]; lra. }
  unfold Sfac. unfold Cdiv. rewrite <- (Cmult_assoc Ci), <- RtoC_inv, <- RtoC_mult by assumption.
  apply C_ext; autorewrite with reim; simpl; unfold Rdiv; ring.
Qed.

Lemma sfactor_shape range L0 s omega Nw Np i :
  (0 < omega)%R -> (0 < L0)%R -> (fst range < snd range)%R -> (0 < Nw)%nat ->
  Re (create_sfactor range L0 s omega Nw Np i) = 1%R /\
  (Im (create_sfactor range L0 s omega Nw Np i) <= 0)%R.
Proof.
  intros Ho HL Hr HN. assert (HE: (0 < EPSILON_0)%R) by apply EPSILON_0_pos.
  unfold create_sfactor. destruct (Nat.ltb_spec Np 1) as [|HNp].
  { simpl; lra. }
  assert (Hhw: (0 < (snd range - fst range) / INR Nw)%R).
  { apply Rdiv_lt_0_compat; [lra|]. apply lt_0_INR; lia. }
  set (hw := ((snd range - fst range) / INR Nw)%R) in *.
  assert (Hdw: (0 < INR Np * hw)%R).
  { apply Rmult_lt_0_compat; [apply lt_0_INR; lia|assumption]. }
  assert (Hgen: forall l, Re (Sfac l (INR Np * hw) omega L0) = 1%R /\ (Im (Sfac l (INR Np * hw) omega L0) <= 0)%R).
  { intro l. rewrite Sfac_eq by assumption. simpl. split; [reflexivity|].
    assert (0 <= sig_w l (INR Np * hw) / (omega * EPSILON_0 * L0))%R.
    { apply Rmult_le_pos; [apply sig_w_nonneg; assumption|].
      apply Rlt_le, Rinv_0_lt_compat. apply Rmult_lt_0_compat; [apply Rmult_lt_0_compat|]; lra. }
    lra. }
  destruct s; (destruct (Nat.leb i Np); [apply Hgen|]; destruct (Z.ltb _ _); [apply Hgen|]; simpl; lra).
Qed.
Lemma sfactor_neq0 range L0 s omega Nw Np i :
  (0 < omega)%R -> (0 < L0)%R -> (fst range < snd range)%R -> (0 < Nw)%nat ->
  create_sfactor range L0 s omega Nw Np i <> RtoC 0.
Proof.
  intros Ho HL Hr HN E. destruct (sfactor_shape range L0 s omega Nw Np i) as [H _]; try assumption.
  rewrite E in H. simpl in H. lra.
Qed.
Lemma sfactor_interior range L0 s omega Nw Np i :
  (Np < i)%nat -> (i + Np <= Nw)%nat -> create_sfactor range L0 s omega Nw Np i = RtoC 1.
Proof.
  intros H1 H2. unfold create_sfactor. destruct (Nat.ltb Np 1); [reflexivity|].
  destruct (Nat.leb_spec i Np); [lia|]. destruct (Z.ltb_spec (Z.of_nat Nw - Z.of_nat Np) (Z.of_nat i)); [lia|].
  destruct s; reflexivity.
Qed.
Lemma sfactor_no_pml range L0 s omega Nw i : create_sfactor range L0 s omega Nw 0 i = RtoC 1.
Proof. reflexivity. Qed.

(* ------------------------------------------------------------------ *)
(** ** scaled derivative operators *)

Section Deriv.
Variables (omega L0 : R) (Nx Ny : nat) (NPML : nat * nat) (xrange yrange : R * R).
Notation M := (Nx * Ny)%nat.
Notation dx := (fst (dL Nx Ny xrange yrange)).
Notation dy := (snd (dL Nx Ny xrange yrange)).
Notation DD w s := (make_deriv w s omega L0 Nx Ny NPML xrange yrange).
Notation SV w s := (S_vec w s omega L0 Nx Ny NPML xrange yrange).

Lemma make_deriv_entry w s r c : (r < M)%nat ->
  DD w s r c = (SV w s r * createDws w s dx dy Nx Ny r c)%C.
Proof. intro Hr. unfold make_deriv, S_create, spdiags. rewrite mm_diag_l by assumption. reflexivity. Qed.

Lemma make_deriv_mv w s v r : (r < M)%nat ->
  mv M (DD w s) v r = (SV w s r * mv M (createDws w s dx dy Nx Ny) v r)%C.
Proof.
  intro Hr. unfold mv. rewrite <- csum_scal. apply csum_ext; intros c Hc.
  rewrite make_deriv_entry by assumption. ring.
Qed.
End Deriv.

(* ------------------------------------------------------------------ *)
(** ** the two axes act independently *)

(** one-axis matrices *)
Definition axis_op (s : side) (d : R) (N : nat) : mat :=
  if Nat.ltb 1 N then mscal (RtoC (1 / d)) (match s with Fwd => dfwd N | Bwd => dbwd N end)
  else mId.

Lemma mv_flat_Id n m v i j : (i < n)%nat -> (j < m)%nat ->
  mv (n * m) mId v (i * m + j)%nat = v (i * m + j)%nat.
Proof. intros Hi Hj. apply mv_Id. apply flat_lt; assumption. Qed.

Lemma csum_Id n i (u : nat -> C) : (i < n)%nat -> csum n (fun c => (mId i c * u c)%C) = u i.
Proof. intro Hi. exact (mv_Id n u i Hi). Qed.

Lemma Dx_form s dx dy Nx Ny v i j : (i < Nx)%nat -> (j < Ny)%nat ->
  mv (Nx * Ny) (createDws AxX s dx dy Nx Ny) v (i * Ny + j)%nat
  = csum Nx (fun c => (axis_op s dx Nx i c * v (c * Ny + j)%nat)%C).
Proof.
  intros Hi Hj. unfold createDws, axis_op. destruct (Nat.ltb 1 Nx).
  - destruct s; rewrite mv_mscal, kron_x by assumption; unfold mscal;
    rewrite <- csum_scal; apply csum_ext; intros c Hc; unfold dfwd, dbwd; ring.
  - unfold sp_eye. rewrite mv_flat_Id by assumption.
    rewrite (csum_Id Nx i (fun c => v (c * Ny + j)%nat)) by assumption. reflexivity.
Qed.
Lemma Dy_form s dx dy Nx Ny v i j : (i < Nx)%nat -> (j < Ny)%nat ->
  mv (Nx * Ny) (createDws AxY s dx dy Nx Ny) v (i * Ny + j)%nat
  = csum Ny (fun c => (axis_op s dy Ny j c * v (i * Ny + c)%nat)%C).
Proof.
  intros Hi Hj. unfold createDws, axis_op. destruct (Nat.ltb 1 Ny).
  - destruct s; rewrite mv_mscal, kron_y by assumption; unfold mscal;
    rewrite <- csum_scal; apply csum_ext; intros c Hc; unfold dfwd, dbwd; ring.
  - unfold sp_eye. rewrite mv_flat_Id by assumption.
    rewrite (csum_Id Ny j (fun c => v (i * Ny + c)%nat)) by assumption. reflexivity.
Qed.

(** PML-scaled versions *)
Definition axis_op_pml (s : side) (omega L0 : R) (range : R * R) (d : R) (N Np : nat) : mat :=
  fun i c => (/ create_sfactor range L0 s omega N Np i * axis_op s d N i c)%C.
Lemma DDx_form s omega L0 Nx Ny NPML xr yr v i j : (i < Nx)%nat -> (j < Ny)%nat ->
  mv (Nx * Ny) (make_deriv AxX s omega L0 Nx Ny NPML xr yr) v (i * Ny + j)%nat
  = csum Nx (fun c => (axis_op_pml s omega L0 xr (fst (dL Nx Ny xr yr)) Nx (fst NPML) i c * v (c * Ny + j)%nat)%C).
Proof.
  intros Hi Hj. rewrite make_deriv_mv by (apply flat_lt; assumption).
  rewrite Dx_form by assumption. unfold S_vec. rewrite flat_div by assumption.
  rewrite <- csum_scal. apply csum_ext; intros c Hc. unfold axis_op_pml. ring.
Qed.
Lemma DDy_form s omega L0 Nx Ny NPML xr yr v i j : (i < Nx)%nat -> (j < Ny)%nat ->
  mv (Nx * Ny) (make_deriv AxY s omega L0 Nx Ny NPML xr yr) v (i * Ny + j)%nat
  = csum Ny (fun c => (axis_op_pml s omega L0 yr (snd (dL Nx Ny xr yr)) Ny (snd NPML) j c * v (i * Ny + c)%nat)%C).
Proof.
  intros Hi Hj. rewrite make_deriv_mv by (apply flat_lt; assumption).
  rewrite Dy_form by assumption. unfold S_vec. rewrite flat_mod by assumption.
  rewrite <- csum_scal. apply csum_ext; intros c Hc. unfold axis_op_pml. ring.
Qed.

Lemma xy_commute s s' omega L0 Nx Ny NPML xr yr v k : (k < Nx * Ny)%nat ->
  let Dx := make_deriv AxX s omega L0 Nx Ny NPML xr yr in
  let Dy := make_deriv AxY s' omega L0 Nx Ny NPML xr yr in
  mv (Nx * Ny) Dx (mv (Nx * Ny) Dy v) k = mv (Nx * Ny) Dy (mv (Nx * Ny) Dx v) k.
Proof.
  intros Hk Dx Dy. unfold Dx, Dy.
  assert (0 < Ny)%nat by (destruct Ny; lia).
  assert (Hi := flat_div_lt Nx Ny k Hk). assert (Hj := flat_mod_lt Nx Ny k Hk).
  rewrite <- (flat_eta Ny k) by assumption. set (i := (k / Ny)%nat) in *. set (j := (k mod Ny)%nat) in *.
  rewrite DDx_form, DDy_form by assumption.
  rewrite (csum_ext Nx _ (fun c => csum Ny (fun d =>
     (axis_op_pml s omega L0 xr (fst (dL Nx Ny xr yr)) Nx (fst NPML) i c *
      (axis_op_pml s' omega L0 yr (snd (dL Nx Ny xr yr)) Ny (snd NPML) j d * v (c * Ny + d)%nat))%C))).
  2:{ intros c Hc. rewrite DDy_form by assumption. rewrite csum_scal. reflexivity. }
  rewrite (csum_ext Ny _ (fun d => csum Nx (fun c =>
     (axis_op_pml s omega L0 xr (fst (dL Nx Ny xr yr)) Nx (fst NPML) i c *
      (axis_op_pml s' omega L0 yr (snd (dL Nx Ny xr yr)) Ny (snd NPML) j d * v (c * Ny + d)%nat))%C))).
  2:{ intros d Hd. rewrite DDx_form by assumption. rewrite <- csum_scal. apply csum_ext; intros; ring. }
  apply csum_swap.
Qed.

(** no PML: the scaling is 1 *)
Lemma S_vec_no_pml w s omega L0 Nx Ny xr yr k :
  S_vec w s omega L0 Nx Ny (0, 0)%nat xr yr k = RtoC 1.
Proof. unfold S_vec. destruct w; simpl; rewrite sfactor_no_pml; field; apply RtoC_neq0; lra. Qed.
Lemma make_deriv_no_pml w s omega L0 Nx Ny xr yr v r : (r < Nx * Ny)%nat ->
  mv (Nx * Ny) (make_deriv w s omega L0 Nx Ny (0,0)%nat xr yr) v r
  = mv (Nx * Ny) (createDws w s (fst (dL Nx Ny xr yr)) (snd (dL Nx Ny xr yr)) Nx Ny) v r.
Proof. intro Hr. rewrite make_deriv_mv, S_vec_no_pml by assumption. ring. Qed.

(** summation by parts *)
Lemma sbp w dx dy Nx Ny u v :
  (match w with AxX => 2 <= Nx | AxY => 2 <= Ny end)%nat ->
  dot (Nx * Ny) u (mv (Nx * Ny) (createDws w Fwd dx dy Nx Ny) v)
  = (- dot (Nx * Ny) (mv (Nx * Ny) (createDws w Bwd dx dy Nx Ny) u) v)%C.
Proof.
  intro HN. rewrite dot_mT. unfold dot. rewrite <- csum_opp. apply csum_ext; intros k Hk.
  assert (E: mv (Nx * Ny) (mT (createDws w Fwd dx dy Nx Ny)) u k
             = (- mv (Nx * Ny) (createDws w Bwd dx dy Nx Ny) u k)%C).
  { unfold mv, mT. rewrite <- csum_opp. apply csum_ext; intros c Hc. rewrite Dws_transpose.
    unfold sgn_axis. destruct w; rewrite ltb_true by assumption; ring. }
  rewrite E. ring.
Qed.

(* ------------------------------------------------------------------ *)
(** ** reciprocity *)

Section Recip.
Variables (omega L0 : R) (Nx Ny : nat) (NPML : nat * nat) (xr yr : R * R).
Hypothesis (Ho : (0 < omega)%R) (HL : (0 < L0)%R) (Hx : (fst xr < snd xr)%R) (Hy : (fst yr < snd yr)%R)
           (HNx : (0 < Nx)%nat) (HNy : (0 < Ny)%nat).
Notation M := (Nx * Ny)%nat.
Notation dx := (fst (dL Nx Ny xr yr)).
Notation dy := (snd (dL Nx Ny xr yr)).
Notation DD w s := (make_deriv w s omega L0 Nx Ny NPML xr yr).
Notation SV w s := (S_vec w s omega L0 Nx Ny NPML xr yr).

(** product of the two forward stretch factors at pixel k *)
Definition wgt : vec := fun k =>
  (create_sfactor xr L0 Fwd omega Nx (fst NPML) (k / Ny)%nat *
   create_sfactor yr L0 Fwd omega Ny (snd NPML) (k mod Ny)%nat)%C.

Lemma wgt_neq0 k : wgt k <> RtoC 0.
Proof.
  unfold wgt. apply Cmult_neq_0; apply sfactor_neq0; assumption.
Qed.

Lemma SVf_x k : (create_sfactor xr L0 Fwd omega Nx (fst NPML) (k / Ny)%nat * SV AxX Fwd k)%C = RtoC 1.
Proof. unfold S_vec. apply Cinv_r. apply sfactor_neq0; assumption. Qed.
Lemma SVf_y k : (create_sfactor yr L0 Fwd omega Ny (snd NPML) (k mod Ny)%nat * SV AxY Fwd k)%C = RtoC 1.
Proof. unfold S_vec. apply Cinv_r. apply sfactor_neq0; assumption. Qed.

(** w times (Dwf diag(g) Dwb) is a symmetric matrix *)
Definition symx (g : vec) : mat := fun r c =>
  csum M (fun k => (sgn_axis AxX Nx Ny * create_sfactor yr L0 Fwd omega Ny (snd NPML) (k mod Ny)%nat * g k * SV AxX Bwd k
    * createDws AxX Bwd dx dy Nx Ny k r * createDws AxX Bwd dx dy Nx Ny k c)%C).
Definition symy (g : vec) : mat := fun r c =>
  csum M (fun k => (sgn_axis AxY Nx Ny * create_sfactor xr L0 Fwd omega Nx (fst NPML) (k / Ny)%nat * g k * SV AxY Bwd k
    * createDws AxY Bwd dx dy Nx Ny k r * createDws AxY Bwd dx dy Nx Ny k c)%C).
Lemma symx_sym g r c : symx g r c = symx g c r.
Proof. unfold symx; apply csum_ext; intros; ring. Qed.
Lemma symy_sym g r c : symy g r c = symy g c r.
Proof. unfold symy; apply csum_ext; intros; ring. Qed.

Lemma wgt_x g r c : (r < M)%nat ->
  (wgt r * mm M (mm M (DD AxX Fwd) (mdiag g)) (DD AxX Bwd) r c)%C = symx g r c.
Proof.
  intro Hr. unfold mm at 1. rewrite <- csum_scal. unfold symx. apply csum_ext; intros k Hk.
  rewrite mm_diag_r by assumption. rewrite !make_deriv_entry by assumption.
  rewrite Dws_transpose. unfold wgt.
  set (Y := fun j => create_sfactor yr L0 Fwd omega Ny (snd NPML) j).
  assert (E := Dws_local_x Bwd dx dy Nx Ny Y k r).
  assert (E2 := SVf_x r).
  set (X := create_sfactor xr L0 Fwd omega Nx (fst NPML) (r / Ny)%nat) in *.
  fold (Y (r mod Ny)%nat) (Y (k mod Ny)%nat).
  transitivity ((X * SV AxX Fwd r) * sgn_axis AxX Nx Ny * (Y (r mod Ny)%nat * createDws AxX Bwd dx dy Nx Ny k r)
      * g k * (SV AxX Bwd k * createDws AxX Bwd dx dy Nx Ny k c))%C; [ring|].
  rewrite E2, <- E. ring.
Qed.
Lemma wgt_y g r c : (r < M)%nat ->
  (wgt r * mm M (mm M (DD AxY Fwd) (mdiag g)) (DD AxY Bwd) r c)%C = symy g r c.
Proof.
  intro Hr. unfold mm at 1. rewrite <- csum_scal. unfold symy. apply csum_ext; intros k Hk.
  rewrite mm_diag_r by assumption. rewrite !make_deriv_entry by assumption.
  rewrite Dws_transpose. unfold wgt.
  set (X := fun j => create_sfactor xr L0 Fwd omega Nx (fst NPML) j).
  assert (E := Dws_local_y Bwd dx dy Nx Ny X k r).
  assert (E2 := SVf_y r).
  set (Y := create_sfactor yr L0 Fwd omega Ny (snd NPML) (r mod Ny)%nat) in *.
  fold (X (r / Ny)%nat) (X (k / Ny)%nat).
  transitivity ((Y * SV AxY Fwd r) * sgn_axis AxY Nx Ny * (X (r / Ny)%nat * createDws AxY Bwd dx dy Nx Ny k r)
      * g k * (SV AxY Bwd k * createDws AxY Bwd dx dy Nx Ny k c))%C; [ring|].
  rewrite E2, <- E. ring.
Qed.

Lemma mm_mscal_diag a A B r c : (r < M)%nat -> (c < M)%nat ->
  mm M (mscal a A) B r c = mm M (mm M A (mdiag (fun _ => a))) B r c.
Proof.
  intros Hr Hc. apply mm_ext; [|apply meq_refl|assumption|assumption].
  intros i j Hi Hj. rewrite mm_diag_r by assumption. unfold mscal; ring.
Qed.

(** entry (r,c) of the system matrix times the weight of pixel r *)
Definition Ax_g (p : pol) (av : bool) (eps : vec) : vec :=
  match p with PolEz => fun _ => RtoC (1 / (MU_0 * L0)) | PolHz => fun k => (/ eps_dir AxX av L0 Nx Ny eps k)%C end.
Definition Ay_g (p : pol) (av : bool) (eps : vec) : vec :=
  match p with PolEz => fun _ => RtoC (1 / (MU_0 * L0)) | PolHz => fun k => (/ eps_dir AxY av L0 Nx Ny eps k)%C end.
Definition Ad_g (p : pol) (eps : vec) : vec :=
  match p with PolEz => fun k => (RtoC (omega ^ 2) * (RtoC (EPSILON_0 * L0) * eps k))%C
             | PolHz => fun k => RtoC (omega ^ 2 * (MU_0 * L0)) end.

Lemma A_decomp eps p av r c : (r < M)%nat -> (c < M)%nat ->
  fst (construct_A omega xr yr Nx Ny eps NPML p L0 av) r c =
  (mm M (mm M (DD AxX Fwd) (mdiag (Ax_g p av eps))) (DD AxX Bwd) r c
   + mm M (mm M (DD AxY Fwd) (mdiag (Ay_g p av eps))) (DD AxY Bwd) r c
   + mdiag (Ad_g p eps) r c)%C.
Proof.
  intros Hr Hc. destruct p; simpl; unfold mplus.
  - rewrite !mm_mscal_diag by assumption. unfold mscal, spdiags, mdiag.
    destruct (Nat.eqb r c); ring.
  - unfold spdiags. unfold mscal, sp_eye, mId, mdiag. destruct (Nat.eqb r c); ring.
Qed.

Lemma A_wgt eps p av r c : (r < M)%nat -> (c < M)%nat ->
  (wgt r * fst (construct_A omega xr yr Nx Ny eps NPML p L0 av) r c)%C =
  (symx (Ax_g p av eps) r c + symy (Ay_g p av eps) r c + mdiag (fun k => wgt k * Ad_g p eps k)%C r c)%C.
Proof.
  intros Hr Hc. rewrite A_decomp by assumption.
  rewrite !Cmult_plus_distr_l, wgt_x, wgt_y by assumption.
  f_equal. unfold mdiag. destruct (Nat.eqb r c); ring.
Qed.
Lemma A_wgt_sym eps p av r c : (r < M)%nat -> (c < M)%nat ->
  let A := fst (construct_A omega xr yr Nx Ny eps NPML p L0 av) in
  (wgt r * A r c = wgt c * A c r)%C.
Proof.
  intros Hr Hc A. unfold A. rewrite !A_wgt by assumption.
  rewrite (symx_sym _ r c), (symy_sym _ r c). f_equal.
  unfold mdiag. rewrite (Nat.eqb_sym r c). destruct (Nat.eqb_spec c r) as [->|]; reflexivity.
Qed.

Lemma reciprocity eps p av b1 b2 E1 E2 :
  let A := fst (construct_A omega xr yr Nx Ny eps NPML p L0 av) in
  solves M A E1 b1 -> solves M A E2 b2 ->
  csum M (fun k => (wgt k * b1 k * E2 k)%C) = csum M (fun k => (wgt k * b2 k * E1 k)%C).
Proof.
  intros A H1 H2.
  rewrite (csum_ext M (fun k => (wgt k * b1 k * E2 k)%C)
            (fun k => csum M (fun c => (wgt k * A k c * E1 c * E2 k)%C))).
  2:{ intros k Hk. rewrite <- (H1 k Hk).
      rewrite <- csum_scal, <- csum_scal_r. apply csum_ext; intros; ring. }
  rewrite (csum_ext M (fun k => (wgt k * b2 k * E1 k)%C)
            (fun k => csum M (fun c => (wgt k * A k c * E2 c * E1 k)%C))).
  2:{ intros k Hk. rewrite <- (H2 k Hk).
      rewrite <- csum_scal, <- csum_scal_r. apply csum_ext; intros; ring. }
  rewrite csum_swap. apply csum_ext; intros c Hc. apply csum_ext; intros k Hk.
  assert (E := A_wgt_sym eps p av k c Hk Hc). cbv zeta in E. fold A in E. rewrite E. ring.
Qed.
End Recip.

Lemma wgt_no_pml omega L0 Nx Ny xr yr k : wgt omega L0 Nx Ny (0,0)%nat xr yr k = RtoC 1.
Proof. unfold wgt; simpl. rewrite !sfactor_no_pml. ring. Qed.

(** without PML the matrix is symmetric, and real when eps is real *)
Lemma A_sym_no_pml omega L0 Nx Ny xr yr eps p av r c :
  (0 < omega)%R -> (0 < L0)%R -> (fst xr < snd xr)%R -> (fst yr < snd yr)%R ->
  (0 < Nx)%nat -> (0 < Ny)%nat -> (r < Nx * Ny)%nat -> (c < Nx * Ny)%nat ->
  let A := fst (construct_A omega xr yr Nx Ny eps (0,0)%nat p L0 av) in A r c = A c r.
Proof.
  intros Ho HL Hx Hy H1 H2 Hr Hc A.
  assert (E := A_wgt_sym omega L0 Nx Ny (0,0)%nat xr yr Ho HL Hx Hy H1 H2 eps p av r c Hr Hc). fold A in E.
  simpl in E. rewrite !wgt_no_pml in E. fold A in E. rewrite !Cmult_1_l in E. exact E.
Qed.

Lemma eps_dir_conj w av L0 Nx Ny eps k :
  (forall j, Cconj (eps j) = eps j) ->
  Cconj (eps_dir w av L0 Nx Ny eps k) = eps_dir w av L0 Nx Ny eps k.
Proof.
  intro H. unfold eps_dir. destruct av.
  - unfold grid_average, roll1. rewrite Cconj_div, Cconj_plus, Cconj_RtoC.
    destruct w; rewrite !Cconj_mult, !H, !Cconj_RtoC; reflexivity.
  - rewrite Cconj_mult, H, Cconj_RtoC. reflexivity.
Qed.

Lemma A_real_no_pml omega L0 Nx Ny xr yr eps p av r c :
  (r < Nx * Ny)%nat -> (c < Nx * Ny)%nat ->
  (forall j, Cconj (eps j) = eps j) ->
  let A := fst (construct_A omega xr yr Nx Ny eps (0,0)%nat p L0 av) in Cconj (A r c) = A r c.
Proof.
  intros Hr Hc He A. unfold A. rewrite A_decomp by assumption.
  assert (Hd: forall w s i j, (i < Nx * Ny)%nat -> Cconj (make_deriv w s omega L0 Nx Ny (0,0)%nat xr yr i j)
                     = make_deriv w s omega L0 Nx Ny (0,0)%nat xr yr i j).
  { intros w s i j Hi. rewrite make_deriv_entry, S_vec_no_pml by assumption.
    rewrite Cconj_mult, Cconj_RtoC, Dws_real. reflexivity. }
  assert (Hg: forall w g, (forall k, Cconj (g k) = g k) ->
     Cconj (mm (Nx * Ny) (mm (Nx * Ny) (make_deriv w Fwd omega L0 Nx Ny (0,0)%nat xr yr) (mdiag g))
              (make_deriv w Bwd omega L0 Nx Ny (0,0)%nat xr yr) r c) =
     mm (Nx * Ny) (mm (Nx * Ny) (make_deriv w Fwd omega L0 Nx Ny (0,0)%nat xr yr) (mdiag g))
              (make_deriv w Bwd omega L0 Nx Ny (0,0)%nat xr yr) r c).
  { intros w g Hgc. unfold mm at 1 3. rewrite Cconj_csum. apply csum_ext; intros k Hk.
    rewrite mm_diag_r by assumption. rewrite !Cconj_mult, !Hd, Hgc by assumption. reflexivity. }
  rewrite !Cconj_plus, !Hg.
  - f_equal. unfold mdiag. destruct (Nat.eqb r c); [|apply Cconj_RtoC].
    destruct p; simpl; rewrite ?Cconj_mult, ?Cconj_RtoC, ?He; reflexivity.
  - intro k. destruct p; simpl; [apply Cconj_RtoC|]. rewrite Cconj_inv, eps_dir_conj by assumption; reflexivity.
  - intro k. destruct p; simpl; [apply Cconj_RtoC|]. rewrite Cconj_inv, eps_dir_conj by assumption; reflexivity.
Qed.

(** A real symmetric matrix has a real quadratic form: no net power *)
Lemma real_sym_no_power n A F b :
  (forall r c, (r < n)%nat -> (c < n)%nat -> A r c = A c r) ->
  (forall r c, (r < n)%nat -> (c < n)%nat -> Cconj (A r c) = A r c) ->
  solves n A F b -> Im (csum n (fun k => (Cconj (F k) * b k)%C)) = 0%R.
Proof.
  intros Hs Hr H.
  set (q := csum n (fun k => (Cconj (F k) * b k)%C)).
  assert (Eq: q = csum n (fun k => csum n (fun c => (Cconj (F k) * A k c * F c)%C))).
  { unfold q. apply csum_ext; intros k Hk. rewrite <- (H k Hk), <- csum_scal. apply csum_ext; intros; ring. }
  assert (Ec: Cconj q = q).
  { rewrite Eq at 1. rewrite Cconj_csum.
    rewrite (csum_ext n _ (fun k => csum n (fun c => (Cconj (F c) * A c k * F k)%C))).
    - rewrite Eq. apply csum_swap.
    - intros k Hk. rewrite Cconj_csum. apply csum_ext; intros c Hc.
      rewrite !Cconj_mult, Cconj_invol, Hr, (Hs k c) by assumption. ring. }
  apply (f_equal Im) in Ec. rewrite Im_conj in Ec. lra.
Qed.
