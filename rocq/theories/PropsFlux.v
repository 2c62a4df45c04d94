(** C58, C59, C60: the power probe. *)
From Coq Require Import Reals Lra Lia List ZArith Arith Bool String.
From Coquelicot Require Import Coquelicot.
From Verif Require Import Base Linear MCore MSim MFilter MOpt MMode Spec PCore PSim PEx PExOpt PMode PropsCore PropsSolve PropsLin.
Import ListNotations.
Local Open Scope string_scope.

(* ------------------------------------------------------------------ *)
(** ** Specification *)

(** time-averaged Poynting vector 1/2 Re(E x conj H), in-plane components *)
Definition poynting_vector (ex ey ez hx hy hz : C) : R * R :=
  (1 / 2 * Re (ey * Cconj hz - ez * Cconj hy)%C, 1 / 2 * Re (ez * Cconj hx - ex * Cconj hz)%C)%R.
(** power density at pixel (i,j) through a line whose normal is x: the out-of-plane
    field is averaged over the pixel and its right neighbour; [f] is the in-plane field
    along y *)
Definition density_x (p : pol) (Ny : nat) (z f : vec) (i j : nat) : R :=
  let zm := ((z (pix Ny i j) + z (pix Ny (S i) j)) / RtoC 2)%C in
  let v := f (pix Ny i j) in let o := RtoC 0 in
  match p with
  | PolEz => fst (poynting_vector o o zm o v o)
  | PolHz => fst (poynting_vector o v o o o zm)
  end.
(** the same for a line whose normal is y; [f] is the in-plane field along x *)
Definition density_y (p : pol) (Ny : nat) (z f : vec) (i j : nat) : R :=
  let zm := ((z (pix Ny i j) + z (pix Ny i (S j))) / RtoC 2)%C in
  let v := f (pix Ny i j) in let o := RtoC 0 in
  match p with
  | PolEz => snd (poynting_vector o o zm v o o)
  | PolHz => snd (poynting_vector v o o o o zm)
  end.
(** the fields that flux_probe reads *)
Definition probe_fields (nl : bool) (s : sim) : fdict := if nl then s_fields_nl s else s_fields s.

Lemma line_power_x p Ny z f i j : line_power p true Ny z f i j = density_x p Ny z f i j.
Proof.
  unfold line_power, density_x, poynting, poynting_vector. rewrite Nat.add_1_r, (Cplus_comm (z _)).
  destruct p; cbn [fst snd]; generalize ((z (pix Ny i j) + z (pix Ny (S i) j)) / RtoC 2)%C as zm; generalize (f (pix Ny i j)) as v;
    intros; autorewrite with reim; lra.
Qed.
Lemma line_power_y p Ny z f i j : line_power p false Ny z f i j = density_y p Ny z f i j.
Proof.
  unfold line_power, density_y, poynting, poynting_vector. rewrite Nat.add_1_r, (Cplus_comm (z _)).
  destruct p; cbn [fst snd]; generalize ((z (pix Ny i j) + z (pix Ny i (S j))) / RtoC 2)%C as zm; generalize (f (pix Ny i j)) as v;
    intros; autorewrite with reim; lra.
Qed.

(* ------------------------------------------------------------------ *)
(** ** C58 *)

(** Lines that stay clear of the last row and column of pixels: the probe adds up exactly
    [w] pixels, the first one being c - (w+1)/2.
    Missing for the full property: lines that touch the last pixel, and the position of
    lines of odd width (see below). *)
Theorem C58_exactly_width_pixels_partial :
  forall (s : sim) (nl : bool) (z f1 f2 : vec) (c0 c1 w : Z),
  probe_fields nl s (pol_comp (s_pol s)) = Some z ->
  probe_fields nl s (match s_pol s with PolEz => Hx | PolHz => Ex end) = Some f1 ->
  probe_fields nl s (match s_pol s with PolEz => Hy | PolHz => Ey end) = Some f2 ->
  (0 <= w)%Z ->
  ((0 <= c0)%Z -> (c0 + 1 < Z.of_nat (s_Nx s))%Z ->
   (0 <= c1 - (w + 1) / 2)%Z -> (c1 - (w + 1) / 2 + w < Z.of_nat (s_Ny s))%Z ->
   flux_probe "x" (c0, c1) w nl s =
   Ok (s_dl s * rsum (Z.to_nat w) (fun t =>
         density_x (s_pol s) (s_Ny s) z f2 (Z.to_nat c0) (Z.to_nat (c1 - (w + 1) / 2) + t)))%R) /\
  ((0 <= c1)%Z -> (c1 + 1 < Z.of_nat (s_Ny s))%Z ->
   (0 <= c0 - (w + 1) / 2)%Z -> (c0 - (w + 1) / 2 + w < Z.of_nat (s_Nx s))%Z ->
   flux_probe "y" (c0, c1) w nl s =
   Ok (s_dl s * rsum (Z.to_nat w) (fun t =>
         density_y (s_pol s) (s_Ny s) z f1 (Z.to_nat (c0 - (w + 1) / 2) + t) (Z.to_nat c1)))%R).
Proof.
  intros s nl z f1 f2 c0 c1 w Hz H1 H2 Hw.
  assert (Q: forall c, (0 <= c - (w + 1) / 2)%Z ->
    Z.quot (2 * c - w) 2 = Z.of_nat (Z.to_nat (c - (w + 1) / 2)) /\
    Z.quot (2 * c + w) 2 = Z.of_nat (Z.to_nat (c - (w + 1) / 2 + w))).
  { intros c Hc. rewrite !Z2Nat.id by lia. split; Z.to_euclidean_division_equations; lia. }
  split; intros A1 A2 A3 A4.
  - destruct (Q c1 A3) as [Q1 Q2].
    rewrite (flux_x_inside s nl z f2 c0 c1 w _ _ Hz H2 Q1 Q2) by lia. do 2 f_equal.
    replace (Z.to_nat (c1 - (w + 1) / 2 + w) - Z.to_nat (c1 - (w + 1) / 2))%nat with (Z.to_nat w) by lia.
    apply rsum_ext; intros t Ht. apply line_power_x.
  - destruct (Q c0 A3) as [Q1 Q2].
    rewrite (flux_y_inside s nl z f1 c0 c1 w _ _ Hz H1 Q1 Q2) by lia. do 2 f_equal.
    replace (Z.to_nat (c0 - (w + 1) / 2 + w) - Z.to_nat (c0 - (w + 1) / 2))%nat with (Z.to_nat w) by lia.
    apply rsum_ext; intros t Ht. apply line_power_y.
Qed.

(** A line of even width 2m is centred: m pixels below the given pixel, m from it on. *)
Theorem C58_even_width_centred_partial :
  forall (s : sim) (nl : bool) (z f1 f2 : vec) (c0 c1 m : nat),
  probe_fields nl s (pol_comp (s_pol s)) = Some z ->
  probe_fields nl s (match s_pol s with PolEz => Hx | PolHz => Ex end) = Some f1 ->
  probe_fields nl s (match s_pol s with PolEz => Hy | PolHz => Ey end) = Some f2 ->
  (c0 + 1 < s_Nx s)%nat -> (m <= c1)%nat -> (c1 + m < s_Ny s)%nat ->
  flux_probe "x" (Z.of_nat c0, Z.of_nat c1) (2 * Z.of_nat m) nl s =
  Ok (s_dl s * (rsum m (fun t => density_x (s_pol s) (s_Ny s) z f2 c0 (c1 - m + t)%nat)
                + rsum m (fun t => density_x (s_pol s) (s_Ny s) z f2 c0 (c1 + t)%nat)))%R.
Proof.
  intros s nl z f1 f2 c0 c1 m Hz H1 H2 A1 A2 A3.
  assert (E: (Z.of_nat c1 - (2 * Z.of_nat m + 1) / 2 = Z.of_nat (c1 - m))%Z) by (Z.to_euclidean_division_equations; lia).
  destruct (C58_exactly_width_pixels_partial s nl z f1 f2 (Z.of_nat c0) (Z.of_nat c1) (2 * Z.of_nat m) Hz H1 H2 ltac:(lia)) as [H _].
  rewrite H by lia. rewrite E, !Nat2Z.id. do 2 f_equal.
  replace (Z.to_nat (2 * Z.of_nat m)) with (m + m)%nat by lia.
  rewrite rsum_app. f_equal. apply rsum_ext; intros t Ht. f_equal. lia.
Qed.

(** ... but a line of odd width 2m+1 is not: it consists of the m+1 pixels below the
    given one and m pixels from it on; in particular a line of width one is the
    pixel below the given one. *)
Theorem C58_odd_width_shifted :
  forall (s : sim) (nl : bool) (z f1 f2 : vec) (c0 c1 m : nat),
  probe_fields nl s (pol_comp (s_pol s)) = Some z ->
  probe_fields nl s (match s_pol s with PolEz => Hx | PolHz => Ex end) = Some f1 ->
  probe_fields nl s (match s_pol s with PolEz => Hy | PolHz => Ey end) = Some f2 ->
  (c0 + 1 < s_Nx s)%nat -> (m < c1)%nat -> (c1 + m < s_Ny s)%nat ->
  flux_probe "x" (Z.of_nat c0, Z.of_nat c1) (2 * Z.of_nat m + 1) nl s =
  Ok (s_dl s * rsum (2 * m + 1) (fun t => density_x (s_pol s) (s_Ny s) z f2 c0 (c1 - 1 - m + t)))%R.
Proof.
  intros s nl z f1 f2 c0 c1 m Hz H1 H2 A1 A2 A3.
  assert (E: (Z.of_nat c1 - (2 * Z.of_nat m + 1 + 1) / 2 = Z.of_nat (c1 - 1 - m))%Z) by (Z.to_euclidean_division_equations; lia).
  destruct (C58_exactly_width_pixels_partial s nl z f1 f2 (Z.of_nat c0) (Z.of_nat c1) (2 * Z.of_nat m + 1) Hz H1 H2 ltac:(lia)) as [H _].
  rewrite H by lia. rewrite E, !Nat2Z.id. do 2 f_equal.
  replace (Z.to_nat (2 * Z.of_nat m + 1)) with (2 * m + 1)%nat by lia. reflexivity.
Qed.

(** A line that ends at the last pixel of the domain is refused (three pixels or more). *)
Theorem C58_line_to_the_border_raises :
  forall (s : sim) (nl : bool) (z f2 : vec) (c0 c1 w : Z),
  probe_fields nl s (pol_comp (s_pol s)) = Some z ->
  probe_fields nl s (match s_pol s with PolEz => Hy | PolHz => Ey end) = Some f2 ->
  (0 <= c0)%Z -> (c0 + 1 < Z.of_nat (s_Nx s))%Z ->
  (3 <= w)%Z -> (0 <= c1 - (w + 1) / 2)%Z -> (c1 - (w + 1) / 2 + w = Z.of_nat (s_Ny s))%Z ->
  flux_probe "x" (c0, c1) w nl s = Raise ValueError.
Proof.
  intros s nl z f2 c0 c1 w Hz H2 A1 A2 A3 A4 A5. unfold probe_fields in *.
  assert (Q1: Z.quot (2 * c1 - w) 2 = (c1 - (w + 1) / 2)%Z) by (Z.to_euclidean_division_equations; lia).
  assert (Q2: Z.quot (2 * c1 + w) 2 = Z.of_nat (s_Ny s)) by (rewrite <- A5; Z.to_euclidean_division_equations; lia).
  unfold flux_probe, line_inds. change (String.eqb "x" "x") with true. cbn [fst snd]. rewrite Q1, Q2, Hz.
  change (comp2 (s_pol s)) with (match s_pol s with PolEz => Hy | PolHz => Ey end). rewrite H2.
  set (lo := (c1 - (w + 1) / 2)%Z) in *.
  unfold nd_zip, nd_drop_last, nd_average. cbn [nd_slice nd_nx nd_ny].
  rewrite (slice_bound_in _ lo), (slice_bound_ge _ (Z.of_nat (s_Ny s) + 1)), (slice_bound_in _ (Z.of_nat (s_Ny s))) by lia.
  rewrite !(slice_bound_in _ c0), !(slice_bound_in _ (c0 + 1)), !(slice_bound_in _ (c0 + 1 + 1)) by lia.
  rewrite Nat2Z.id.
  assert (W: (s_Ny s - Z.to_nat lo = Z.to_nat w)%nat) by lia. rewrite W.
  rewrite !(slice_bound_in _ 0), !(slice_bound_neg _ (-1)) by lia.
  replace (bdim (Z.to_nat (-1 + Z.of_nat (Z.to_nat w)) - Z.to_nat 0) (Z.to_nat w)) with (@None nat).
  - destruct (bdim _ _); reflexivity.
  - unfold bdim.
    destruct (Nat.eqb_spec (Z.to_nat (-1 + Z.of_nat (Z.to_nat w)) - Z.to_nat 0) (Z.to_nat w)); [lia|].
    destruct (Nat.eqb_spec (Z.to_nat (-1 + Z.of_nat (Z.to_nat w)) - Z.to_nat 0) 1); [lia|].
    destruct (Nat.eqb_spec (Z.to_nat w) 1); [lia|reflexivity].
Qed.

(** On the last column, and for the centres -1 and -2, the probe adds up nothing. *)
Theorem C58_no_power_on_the_last_column :
  forall (s : sim) (nl : bool) (z f2 : vec) (c0 c1 w : Z),
  probe_fields nl s (pol_comp (s_pol s)) = Some z ->
  probe_fields nl s (match s_pol s with PolEz => Hy | PolHz => Ey end) = Some f2 ->
  (2 <= s_Nx s)%nat -> (Z.of_nat (s_Nx s) - 1 <= c0)%Z \/ c0 = (-1)%Z \/ c0 = (-2)%Z ->
  (0 <= w)%Z -> (0 <= c1 - (w + 1) / 2)%Z -> (c1 - (w + 1) / 2 + w < Z.of_nat (s_Ny s))%Z ->
  flux_probe "x" (c0, c1) w nl s = Ok 0%R.
Proof.
  intros s nl z f2 c0 c1 w Hz H2 A1 A2 A3 A4 A5. unfold probe_fields in *.
  assert (Q1: Z.quot (2 * c1 - w) 2 = (c1 - (w + 1) / 2)%Z) by (Z.to_euclidean_division_equations; lia).
  assert (Q2: Z.quot (2 * c1 + w) 2 = (c1 - (w + 1) / 2 + w)%Z) by (Z.to_euclidean_division_equations; lia).
  unfold flux_probe, line_inds. change (String.eqb "x" "x") with true. cbn [fst snd]. rewrite Q1, Q2, Hz.
  change (comp2 (s_pol s)) with (match s_pol s with PolEz => Hy | PolHz => Ey end). rewrite H2.
  set (lo := (c1 - (w + 1) / 2)%Z) in *.
  unfold nd_zip, nd_drop_last, nd_average. cbn [nd_slice nd_nx nd_ny].
  rewrite !(slice_bound_in _ lo), !(slice_bound_in _ (lo + w + 1)), !(slice_bound_in _ (lo + w)) by lia.
  assert (HR: (slice_bound (s_Nx s) (c0 + 1 + 1) - slice_bound (s_Nx s) c0 <= 1)%nat).
  { unfold slice_bound. destruct (Z.ltb_spec c0 0), (Z.ltb_spec (c0 + 1 + 1) 0); lia. }
  set (r := (slice_bound (s_Nx s) (c0 + 1 + 1) - slice_bound (s_Nx s) c0)%nat) in *.
  assert (HR2: (slice_bound (s_Nx s) (c0 + 1) - slice_bound (s_Nx s) c0 <= 1)%nat).
  { unfold slice_bound. destruct (Z.ltb_spec c0 0), (Z.ltb_spec (c0 + 1) 0); lia. }
  set (r2 := (slice_bound (s_Nx s) (c0 + 1) - slice_bound (s_Nx s) c0)%nat) in *.
  rewrite !(slice_bound_in _ 0), !(slice_bound_neg _ (-1)) by lia.
  replace (Z.to_nat (-1 + Z.of_nat r) - Z.to_nat 0)%nat with 0%nat by lia.
  replace (Z.to_nat (-1 + Z.of_nat (Z.to_nat (lo + w + 1) - Z.to_nat lo)) - Z.to_nat 0)%nat with (Z.to_nat (lo + w) - Z.to_nat lo)%nat by lia.
  rewrite bdim_same.
  assert (HB: bdim 0 r2 = Some O). { destruct r2 as [|[|]]; [reflexivity|reflexivity|lia]. }
  rewrite HB. unfold nd_sum, nd_size; cbn [nd_nx nd_ny nd_buf Nat.mul rsum]. f_equal. ring.
Qed.

(* ------------------------------------------------------------------ *)
(** ** Solved fields of a simulation without PML (Ez) *)

(** Ez simulation without absorbing layers, square pixels of size d *)
Definition plain_Ez (s : sim) (d : R) : Prop :=
  consistent s /\ s_pol s = PolEz /\ s_NPML s = (0, 0)%nat /\
  dL (s_Nx s) (s_Ny s) (s_xrange s) (s_yrange s) = (d, d) /\ (0 < d)%R /\ s_dl s = d /\
  (2 <= s_Nx s)%nat /\ (2 <= s_Ny s)%nat /\ (0 < s_L0 s)%R /\ (0 < s_omega s)%R.
Lemma plain_upd_src s d src : plain_Ez s d -> plain_Ez (upd_src src s) d.
Proof. intro H; exact H. Qed.

(** every field is the solution for some source *)
Definition src_for (s : sim) (Z : vec) : nd C :=
  mkNd (s_Nx s) (s_Ny s) (fun k => (mv (s_M s) (s_A s) Z k / (Ci * RtoC (s_omega s)))%C).
Lemma Ci_neq0 : Ci <> RtoC 0.
Proof. intro H. apply (f_equal Im) in H. cbn in H. lra. Qed.
Lemma field_by_source e s Z :
  solver_exact e -> nonsingular (s_M s) (s_A s) -> s_pol s = PolEz -> s_omega s <> 0%R ->
  exists hx hy X,
    solve_fields e false true (upd_src (src_for s Z) s) =
      (upd_fields (store3 PolEz (s_fields s) (hx, hy, X)) (upd_src (src_for s Z) s), Ok (hx, hy, X)) /\
    veq (s_M s) X Z /\ (hx, hy) = derived_fields s (s_epsC s) true X.
Proof.
  intros He HA Hp Ho.
  destruct (solve_fields_lin e true (upd_src (src_for s Z) s) eq_refl) as (X & HX & HE). cbv zeta in HE.
  change (derived_fields (upd_src (src_for s Z) s) (s_epsC (upd_src (src_for s Z) s)) true X) with (derived_fields s (s_epsC s) true X) in HE.
  destruct (derived_fields s (s_epsC s) true X) as [hx hy] eqn:ED. cbn [fst snd] in HE.
  exists hx, hy, X. change (s_pol (upd_src (src_for s Z) s)) with (s_pol s) in HE. rewrite Hp in HE.
  split; [exact HE|]. split; [|symmetry; exact ED].
  assert (S1 := solver_direct_correct e _ _ _ _ _ He HA HX).
  apply (solves_unique (s_M s) (s_A s) X Z _ HA S1).
  intros r Hr. change (csum (s_M s) _) with (mv (s_M s) (s_A s) Z r).
  unfold rhs. cbn [upd_src src_for s_src s_omega nd_buf]. field.
  split; [|exact Ci_neq0]. apply RtoC_neq0; exact Ho.
Qed.

(** the power density of a solved field, from the out-of-plane field alone *)
Lemma Ez_density_x e s s' d hx hy z i j av :
  plain_Ez s d -> solve_fields e false av s = (s', Ok (hx, hy, z)) -> (i < s_Nx s)%nat -> (j < s_Ny s)%nat ->
  density_x PolEz (s_Ny s) z hy i j =
  (Im ((z (pix (s_Ny s) i j) + z (pix (s_Ny s) (S i) j)) * Cconj (z (pix (s_Ny s) i j) - z (pix (s_Ny s) (prev (s_Nx s) i) j)))%C
   / (4 * s_omega s * (MU_0 * s_L0 s) * d))%R.
Proof.
  intros (HC & HP & HN & HD & Hd & Hdl & HNx & HNy & HL & Ho) H Hi Hj.
  apply solve_fields_ok in H as (_ & _ & H & _). unfold derived_fields in H. rewrite HP in H.
  destruct (consistent_A s HC) as [_ ED]. rewrite ED, HN in H. injection H as _ ->.
  assert (Hmu: (0 < MU_0 * s_L0 s)%R) by (apply Rmult_lt_0_compat; [apply MU_0_pos|lra]).
  unfold density_x, poynting_vector, vscal. cbn [fst]. unfold make_derivs, Dxb. unfold s_M.
  rewrite make_deriv_no_pml by (apply flat_lt; assumption). rewrite HD; cbn [fst snd]. rewrite Dxb_stencil by (try assumption; lra). unfold diff_xb.
  set (a := z (pix (s_Ny s) i j)). set (b := z (pix (s_Ny s) (S i) j)). set (c := z (pix (s_Ny s) (prev (s_Nx s) i) j)).
  assert (E: ((RtoC 1 / Ci / RtoC (s_omega s) / RtoC (MU_0 * s_L0 s)) * ((a - c) / RtoC d) =
     RtoC (/ (s_omega s * (MU_0 * s_L0 s) * d)) * (- Ci * (a - c)))%C).
  { rewrite RtoC_inv by (apply Rgt_not_eq; apply Rmult_lt_0_compat; [apply Rmult_lt_0_compat|]; lra). rewrite !RtoC_mult.
    assert (RtoC (s_omega s) <> RtoC 0) by (apply RtoC_neq0; lra). assert (RtoC MU_0 <> RtoC 0) by (apply RtoC_neq0; apply Rgt_not_eq, MU_0_pos).
    assert (RtoC (s_L0 s) <> RtoC 0) by (apply RtoC_neq0; lra). assert (RtoC d <> RtoC 0) by (apply RtoC_neq0; lra).
    assert (EC: (RtoC 1 / Ci = - Ci)%C). { assert (HI := Ci_neq0). transitivity (- (Ci * Ci) / Ci)%C; [f_equal; unfold Ci; apply injective_projections; cbn; ring|field; exact HI]. }
    rewrite EC. field. repeat split; assumption. }
  rewrite E. clearbody a b c. unfold Cdiv. rewrite <- RtoC_inv by lra. autorewrite with reim. cbn [Re Im Ci fst snd RtoC].
  field. assert (HM0 := MU_0_pos). repeat split; lra.
Qed.

(* ------------------------------------------------------------------ *)
(** ** C60 *)

(** [D2] holds the fields of [D] (M pixels), each multiplied by [c] *)
Definition all_multiplied (c : C) (M : nat) (D D2 : fdict) : Prop :=
  forall q, match D q, D2 q with Some F, Some G => forall k, (k < M)%nat -> G k = (c * F k)%C | None, None => True | _, _ => False end.
(** time reversal: E becomes conj E, H becomes - conj H *)
Definition is_electric (q : comp) : bool := match q with Ex | Ey | Ez => true | _ => false end.
Definition time_reversed (M : nat) (D D2 : fdict) : Prop :=
  forall q, match D q, D2 q with
            | Some F, Some G => forall k, (k < M)%nat -> G k = if is_electric q then Cconj (F k) else (- Cconj (F k))%C
            | None, None => True | _, _ => False end.
(** [s2] is the same simulation as [s] apart from the fields and the rest of the state
    that flux_probe does not read *)
Definition same_grid (s s2 : sim) : Prop :=
  s_pol s2 = s_pol s /\ s_Nx s2 = s_Nx s /\ s_Ny s2 = s_Ny s /\ s_dl s2 = s_dl s.

(** [b] is [a] with [g] applied to every entry *)
Definition nd_image (g : C -> C) (a b : nd C) : Prop :=
  nd_nx b = nd_nx a /\ nd_ny b = nd_ny a /\
  forall i j, (i < nd_nx a)%nat -> (j < nd_ny a)%nat -> nd_at b i j = g (nd_at a i j).
Lemma nd_image_slice g a b i0 i1 j0 j1 : nd_image g a b -> nd_image g (nd_slice a i0 i1 j0 j1) (nd_slice b i0 i1 j0 j1).
Proof.
  intros (E1 & E2 & E3). unfold nd_slice. rewrite E1, E2.
  set (r0 := slice_bound (nd_nx a) i0). set (r1 := slice_bound (nd_nx a) i1).
  set (q0 := slice_bound (nd_ny a) j0). set (q1 := slice_bound (nd_ny a) j1).
  assert (B1: (r1 <= nd_nx a)%nat) by apply slice_bound_le. assert (B2: (q1 <= nd_ny a)%nat) by apply slice_bound_le.
  split; [reflexivity|]. split; [reflexivity|]. cbn [nd_nx nd_ny]. intros i j Hi Hj.
  unfold nd_at at 1 3. cbn [nd_buf nd_ny]. destruct (flat2 i (q1 - q0) j Hj) as [-> ->]. apply E3; lia.
Qed.
Lemma nd_image_average g w a b :
  (forall x y, g ((x + y) / RtoC 2)%C = ((g x + g y) / RtoC 2)%C) ->
  nd_image g a b -> nd_image g (nd_average w a) (nd_average w b).
Proof.
  intros Hg (E1 & E2 & E3). unfold nd_average. rewrite E1, E2. split; [reflexivity|]. split; [reflexivity|].
  cbn [nd_nx nd_ny]. intros i j Hi Hj. unfold nd_at; cbn [nd_buf nd_ny]. unfold grid_average, roll1.
  destruct (flat2 i (nd_ny a) j Hj) as [-> ->]. rewrite Hg.
  assert (N1: ((i + nd_nx a - 1) mod nd_nx a < nd_nx a)%nat) by (apply Nat.mod_upper_bound; lia).
  assert (N2: ((j + nd_ny a - 1) mod nd_ny a < nd_ny a)%nat) by (apply Nat.mod_upper_bound; lia).
  unfold nd_at in E3. rewrite E2 in E3. rewrite <- (E3 i j) by assumption.
  destruct w; [rewrite <- (E3 _ j) by assumption|rewrite <- (E3 i) by assumption]; reflexivity.
Qed.
Lemma bdim_idx n m r i : bdim n m = Some r -> (i < r)%nat -> (bidx n i < n)%nat /\ (bidx m i < m)%nat.
Proof.
  unfold bdim, bidx. destruct (Nat.eqb_spec n m), (Nat.eqb_spec n 1), (Nat.eqb_spec m 1); intro H; try discriminate; injection H as <-; lia.
Qed.
Lemma nd_image_zip g h (f : C -> C -> R) K a b a2 b2 :
  (forall x y, f (g x) (h y) = (K * f x y)%R) -> nd_image g a a2 -> nd_image h b b2 ->
  match nd_zip f a2 b2 with Ok P => Ok (nd_sum P) | Raise x => Raise x end =
  match nd_zip f a b with Ok P => Ok (K * nd_sum P)%R | Raise x => Raise x end.
Proof.
  intros Hf (A1 & A2 & A3) (B1 & B2 & B3). unfold nd_zip. rewrite A1, A2, B1, B2.
  destruct (bdim (nd_nx a) (nd_nx b)) as [n|] eqn:En; [|reflexivity].
  destruct (bdim (nd_ny a) (nd_ny b)) as [m|] eqn:Em; [|reflexivity].
  f_equal. unfold nd_sum, nd_size. cbn [nd_nx nd_ny nd_buf]. rewrite <- rsum_scal. apply rsum_ext. intros k Hk.
  assert (Hm: (m <> 0)%nat) by (intro; subst; lia).
  assert (K1: (k / m < n)%nat) by (apply Nat.div_lt_upper_bound; lia).
  assert (K2: (k mod m < m)%nat) by (apply Nat.mod_upper_bound; assumption).
  destruct (bdim_idx _ _ _ _ En K1). destruct (bdim_idx _ _ _ _ Em K2).
  rewrite A3, B3 by assumption. apply Hf.
Qed.
Lemma flux_transform (g h : C -> C) (K : R) dir center w nl s s2 :
  same_grid s s2 ->
  (forall a b, g ((a + b) / RtoC 2)%C = ((g a + g b) / RtoC 2)%C) ->
  (forall xn z f, poynting (s_pol s) xn (g z) (h f) = (K * poynting (s_pol s) xn z f)%R) ->
  (match probe_fields nl s (pol_comp (s_pol s)), probe_fields nl s2 (pol_comp (s_pol s)) with
   | Some F, Some G => forall k, (k < s_M s)%nat -> G k = g (F k) | None, None => True | _, _ => False end) ->
  (forall q, q = comp1 (s_pol s) \/ q = comp2 (s_pol s) ->
     match probe_fields nl s q, probe_fields nl s2 q with
     | Some F, Some G => forall k, (k < s_M s)%nat -> G k = h (F k) | None, None => True | _, _ => False end) ->
  flux_probe dir center w nl s2 =
  match flux_probe dir center w nl s with Ok P => Ok (K * P)%R | Raise x => Raise x end.
Proof.
  intros (E1 & E2 & E3 & E4) Hg HP HZ HF. unfold flux_probe. rewrite E1, E2, E3, E4.
  destruct (line_inds dir center w) as [[[[i0 i1] j0] j1]|x]; [|reflexivity].
  cbv zeta. fold (probe_fields nl s). fold (probe_fields nl s2).
  set (xn := String.eqb dir "x"). set (q := if xn then comp2 (s_pol s) else comp1 (s_pol s)).
  assert (Hq: q = comp1 (s_pol s) \/ q = comp2 (s_pol s)) by (unfold q; destruct xn; auto).
  specialize (HF q Hq).
  destruct (probe_fields nl s (pol_comp (s_pol s))) as [Zf|], (probe_fields nl s2 (pol_comp (s_pol s))) as [Zg|]; try contradiction; [|reflexivity].
  destruct (probe_fields nl s q) as [Ff|], (probe_fields nl s2 q) as [Fg|]; try contradiction; [|reflexivity].
  set (W := if xn then AxX else AxY).
  assert (IM: forall f F G, (forall k, (k < s_M s)%nat -> G k = f (F k)) -> nd_image f (mkNd (s_Nx s) (s_Ny s) F) (mkNd (s_Nx s) (s_Ny s) G)).
  { intros f F G H. split; [reflexivity|]. split; [reflexivity|]. cbn [nd_nx nd_ny]. intros i j Hi Hj.
    unfold nd_at; cbn [nd_buf nd_ny]. apply H. apply flat_lt; assumption. }
  assert (IZ := IM g Zf Zg HZ). assert (IF := IM h Ff Fg HF).
  assert (I1 := nd_image_slice g _ _ 0 (-1) 0 (-1) (nd_image_average g W _ _ Hg (nd_image_slice g _ _ i0 (i1 + 1) j0 (j1 + 1) IZ))).
  assert (I2 := nd_image_slice h _ _ i0 i1 j0 j1 IF).
  assert (E := nd_image_zip g h (poynting (s_pol s) xn) K _ _ _ _ (HP xn) I1 I2).
  unfold nd_drop_last.
  destruct (nd_zip (poynting (s_pol s) xn) _ (nd_slice {| nd_nx := s_Nx s; nd_ny := s_Ny s; nd_buf := Fg |} i0 i1 j0 j1)) as [P2|x2],
           (nd_zip (poynting (s_pol s) xn) _ (nd_slice {| nd_nx := s_Nx s; nd_ny := s_Ny s; nd_buf := Ff |} i0 i1 j0 j1)) as [P1|x1];
    try discriminate.
  - injection E as ->. f_equal. ring.
  - injection E as ->. reflexivity.
Qed.

Theorem C60_scales_with_power :
  forall (c : C) dir center w nl s s2,
  same_grid s s2 -> all_multiplied c (s_M s) (probe_fields nl s) (probe_fields nl s2) ->
  flux_probe dir center w nl s2 =
  match flux_probe dir center w nl s with Ok P => Ok (Cmod c ^ 2 * P)%R | Raise x => Raise x end.
Proof.
  intros c dir center w nl s s2 HG H. apply (flux_transform (Cmult c) (Cmult c)); [exact HG| | |exact (H _)|intros q _; exact (H q)].
  - intros a b. unfold Cdiv. ring.
  - intros xn z f. rewrite Cmod2. unfold Cnorm2, poynting. destruct (s_pol s), xn; autorewrite with reim; ring.
Qed.

Theorem C60_time_reversal_flips_sign :
  forall dir center w nl s s2,
  same_grid s s2 -> time_reversed (s_M s) (probe_fields nl s) (probe_fields nl s2) ->
  flux_probe dir center w nl s2 =
  match flux_probe dir center w nl s with Ok P => Ok (- P)%R | Raise x => Raise x end.
Proof.
  intros dir center w nl s s2 HG H.
  assert (HK: match flux_probe dir center w nl s with Ok P => Ok (- P)%R | Raise x => Raise x end
     = match flux_probe dir center w nl s with Ok P => Ok (-1 * P)%R | Raise x => Raise x end).
  { destruct (flux_probe dir center w nl s); [f_equal; ring|reflexivity]. }
  rewrite HK. destruct (s_pol s) eqn:EP.
  - apply (flux_transform Cconj (fun x => - Cconj x)%C); rewrite ?EP; [exact HG| | |exact (H Ez)|].
    + intros a b. unfold Cdiv. rewrite <- RtoC_inv by lra. apply injective_projections; cbn; ring.
    + intros xn z f. unfold poynting. destruct xn; autorewrite with reim; ring.
    + intros q [->| ->]; [exact (H Hx)|exact (H Hy)].
  - apply (flux_transform (fun x => - Cconj x)%C Cconj); rewrite ?EP; [exact HG| | |exact (H Hz)|].
    + intros a b. unfold Cdiv. rewrite <- RtoC_inv by lra. apply injective_projections; cbn; ring.
    + intros xn z f. unfold poynting. destruct xn; autorewrite with reim; ring.
    + intros q [->| ->]; [exact (H Ex)|exact (H Ey)].
Qed.

(** In terms of sources: multiplying the source by a factor multiplies the flux of the
    solved fields by its squared modulus. *)
Corollary C60_source_times_factor :
  forall e s (c : C) src src2 s1 s2 r1 r2 dir center w,
  reachable e s -> solver_exact e -> nonsingular (s_M s) (s_A s) ->
  (forall k, (k < s_M s)%nat -> nd_buf src2 k = (c * nd_buf src k)%C) ->
  solve_fields e false false (upd_src src s) = (s1, Ok r1) ->
  solve_fields e false false (upd_src src2 s) = (s2, Ok r2) ->
  flux_probe dir center w false s2 =
  match flux_probe dir center w false s1 with Ok P => Ok (Cmod c ^ 2 * P)%R | Raise x => Raise x end.
Proof.
  intros e s c src src2 s1 s2 [[a1 b1] z1] [[a2 b2] z2] dir center w HR He HA Hs H1 H2.
  assert (HL := C10_linear_in_source e s HR He HA false c (RtoC 0) src src src2 _ _ _ _ _ _ _ _ _ _ _ _
    ltac:(intros k Hk; rewrite (Hs k Hk); ring) H1 H1 H2).
  apply solve_fields_lin_state in H1 as (G1 & [(? & _)|(_ & X1 & _ & F1 & R1)]); [discriminate|].
  apply solve_fields_lin_state in H2 as (G2 & [(? & _)|(_ & X2 & _ & F2 & R2)]); [discriminate|].
  cbv zeta in *. injection R1 as -> -> ->. injection R2 as -> -> ->.
  change (s_fields (upd_src src s)) with (s_fields s) in F1. change (s_fields (upd_src src2 s)) with (s_fields s) in F2.
  change (s_pol (upd_src src s)) with (s_pol s) in F1. change (s_pol (upd_src src2 s)) with (s_pol s) in F2.
  change (s_M (upd_src src s)) with (s_M s) in HL. change (s_M (upd_src src2 s)) with (s_M s) in HL.
  unfold same_problem in G1, G2. cbn [upd_src s_pol s_Nx s_Ny s_dl s_omega s_L0 s_NPML s_xrange s_yrange s_eps s_A s_derivs s_src] in G1, G2.
  assert (EP1: s_pol s1 = s_pol s) by intuition congruence. assert (EM: s_M s1 = s_M s) by (unfold s_M; intuition congruence).
  apply (flux_transform (Cmult c) (Cmult c)).
  - unfold same_grid. intuition congruence.
  - intros a b. unfold Cdiv. ring.
  - intros xn z f. rewrite Cmod2. unfold Cnorm2, poynting. destruct (s_pol s1), xn; autorewrite with reim; ring.
  - unfold probe_fields. rewrite F1, F2, EP1, EM. destruct (s_pol s); cbn -[derived_fields]; intros k Hk; destruct (HL k Hk) as (_ & _ & ->); ring.
  - unfold probe_fields. rewrite F1, F2, EP1, EM.
    intros q [-> | ->]; destruct (s_pol s); cbn -[derived_fields]; intros k Hk; destruct (HL k Hk) as (L1 & L2 & _); rewrite ?L1, ?L2; ring.
Qed.

(* ------------------------------------------------------------------ *)
(** ** C58, concrete simulations *)

Lemma fam_plain Nx Ny eps s : fam_sim "Ez" Nx Ny 0 0 eps = Ok s -> (2 <= Nx)%nat -> (2 <= Ny)%nat ->
  (forall k, (k < Nx * Ny)%nat -> (1 <= eps k)%R) ->
  plain_Ez s 1 /\ (forall e, reachable e s) /\ nonsingular (s_M s) (s_A s) /\ s_Nx s = Nx /\ s_Ny s = Ny /\
  (forall k, nd_buf (s_eps s) k = eps k) /\ s_omega s = ex_omega /\ s_L0 s = 1%R.
Proof.
  intros H HNx HNy He. assert (H0 := H).
  assert (HR: forall e, reachable e s).
  { intro e. exists ex_omega, (mkNd Nx Ny eps), 1%R, (Some [Z.of_nat 0; Z.of_nat 0]), "Ez", 1%R, s, []. cbn [nd_nx nd_ny].
    repeat split; try lra; try lia. exact H. }
  apply Simulation_fields in H. destruct H as (E1 & E2 & E3 & E4 & E5 & E6 & E7 & E8 & P1 & P2 & E9 & EP & _ & _).
  cbn [nd_nx nd_ny] in *. specialize (E9 _ _ eq_refl). rewrite !Nat2Z.id in E9. specialize (EP eq_refl).
  assert (HC := reachable_consistent ex_env s (HR ex_env)).
  split; [|split; [exact HR|split; [|repeat split; try assumption]]].
  - unfold plain_Ez. split; [exact HC|]. rewrite E3, E4, E6, E7, E8. repeat split; try assumption; try lra.
    apply dL_new; lia.
  - destruct (consistent_A s HC) as [EA _]. rewrite EA. unfold s_M, s_epsC. rewrite E1, E2, E3, E4, E5, E6, E7, E9, EP.
    cbn [nd_buf]. apply Ez_nonsingular with (d := 1%R); try lra; try assumption.
    + apply dL_new; lia.
    + intros k Hk. replace (ex_omega ^ 2 * (EPSILON_0 * 1) * (MU_0 * 1) * (1 * 1))%R with (ex_omega ^ 2 * (EPSILON_0 * MU_0))%R by ring.
      rewrite ex_omega_sq. specialize (He k Hk). lra.
  - intro k. rewrite E5. reflexivity.
Qed.

Lemma reachable_src e s src : reachable e s -> reachable e (upd_src src s).
Proof.
  intros (omega & eps & dl & np & p & L0 & s0 & l & Hd & Hx & Hy & HS & ->).
  exists omega, eps, dl, np, p, L0, s0, (l ++ [SetSrc src])%list. repeat split; try assumption.
  revert s0 HS. induction l as [|o l IH]; intros s0 HS; [reflexivity|].
  assert (G: forall l s, upd_src src (run_ops e l s) = run_ops e (l ++ [SetSrc src])%list s).
  { clear. induction l as [|o l IH]; intro s; [reflexivity|]. cbn. apply IH. }
  apply G.
Qed.
(** The property as claimed, for lines that end at least [gap] pixels before the last
    pixel: exactly [w] pixels are added, starting at c1 - w/2. *)
Definition C58_property (gap : nat) : Prop :=
  forall e s s' a b z, reachable e s -> solver_exact e -> nonsingular (s_M s) (s_A s) -> s_pol s = PolEz ->
  solve_fields e false true s = (s', Ok (a, b, z)) ->
  forall c0 c1 w : nat, (c0 + 1 < s_Nx s)%nat -> (w / 2 <= c1)%nat -> (c1 - w / 2 + w + gap <= s_Ny s)%nat ->
  flux_probe "x" (Z.of_nat c0, Z.of_nat c1) (Z.of_nat w) false s' =
  Ok (s_dl s * rsum w (fun t => density_x (s_pol s) (s_Ny s) z b c0 (c1 - w / 2 + t)))%R.

(** A line that ends at the border of the domain raises an exception. *)
Theorem C58_border_refuted : ~ C58_property 0.
Proof.
  intro HP. destruct (fam_sim_ok "Ez" 4 4 0 0 (fun _ => 1%R) (or_introl eq_refl)) as [s Hs].
  destruct (fam_plain _ _ _ _ Hs ltac:(lia) ltac:(lia) ltac:(intros; lra)) as (PL & HR & HN & E1 & E2 & E3 & E4 & E5).
  assert (Hp: s_pol s = PolEz) by apply PL. assert (Ho: s_omega s <> 0%R) by (apply Rgt_not_eq; apply PL).
  destruct (field_by_source ex_env s vzero ex_env_exact HN Hp Ho) as (hx & hy & X & HS & _ & _).
  assert (HR': reachable ex_env (upd_src (src_for s vzero) s)) by (apply reachable_src; apply HR).
  assert (H := HP ex_env _ _ hx hy X HR' ex_env_exact HN Hp HS 1%nat 2%nat 4%nat).
  cbn [upd_src s_Nx s_Ny s_pol s_dl] in H. rewrite E1, E2 in H. specialize (H ltac:(lia) ltac:(cbn; lia) ltac:(cbn; lia)).
  rewrite (C58_line_to_the_border_raises _ false X hy) in H; try discriminate; try lia; cbn -[Z.of_nat]; rewrite ?Hp, ?E1, ?E2; try reflexivity; try (cbn; lia).
Qed.

(** A line of odd width is off by one pixel wherever it is. *)
Theorem C58_odd_width_refuted : forall gap, ~ C58_property gap.
Proof.
  intros gap HP. set (Ny := (3 + gap)%nat).
  destruct (fam_sim_ok "Ez" 4 Ny 0 0 (fun _ => 1%R) (or_introl eq_refl)) as [s Hs].
  destruct (fam_plain _ _ _ _ Hs ltac:(lia) ltac:(lia) ltac:(intros; lra)) as (PL & HR & HN & E1 & E2 & E3 & E4 & E5).
  assert (Hp: s_pol s = PolEz) by apply PL. assert (Ho: s_omega s <> 0%R) by (apply Rgt_not_eq; apply PL).
  set (Z0 := fun k => if Nat.eqb k (pix Ny 1 1) then RtoC 1 else if Nat.eqb k (pix Ny 0 1) then Ci else RtoC 0).
  destruct (field_by_source ex_env s Z0 ex_env_exact HN Hp Ho) as (hx & hy & X & HS & HX & _).
  assert (HR': reachable ex_env (upd_src (src_for s Z0) s)) by (apply reachable_src; apply HR).
  assert (H := HP ex_env _ _ hx hy X HR' ex_env_exact HN Hp HS 1%nat 1%nat 1%nat).
  cbn [upd_src s_Nx s_Ny s_pol s_dl] in H. rewrite E1, E2 in H. specialize (H ltac:(lia) ltac:(cbn; lia) ltac:(cbn; lia)).
  set (s' := upd_fields _ _) in *.
  assert (G := C58_odd_width_shifted s' false X hx hy 1 1 0).
  change (s_pol s') with (s_pol s) in G. change (s_Nx s') with (s_Nx s) in G. change (s_Ny s') with (s_Ny s) in G. change (s_dl s') with (s_dl s) in G.
  rewrite Hp, E1, E2 in G. specialize (G eq_refl eq_refl eq_refl ltac:(lia) ltac:(lia) ltac:(lia)).
  change (2 * Z.of_nat 0 + 1)%Z with (Z.of_nat 1) in G. rewrite G in H. apply (f_equal (fun r => match r with Ok P => P | Raise _ => 0%R end)) in H. cbv beta iota in H.
  rewrite Hp in H. cbn [Nat.mul Nat.add rsum] in H. change (1 / 2)%nat with 0%nat in H. cbn [Nat.sub Nat.add] in H.
  assert (D := fun j => Ez_density_x ex_env _ _ 1%R _ _ _ 1%nat j true (plain_upd_src _ _ (src_for s Z0) PL) HS).
  cbn [upd_src s_Nx s_Ny s_omega s_L0] in D. rewrite E1, E2 in D. rewrite !D in H by lia. cbn [prev Nat.sub] in H.
  unfold s_M in HX. rewrite E1, E2 in HX.
  rewrite !HX in H by (apply flat_lt; lia).
  assert (EV: forall i j, (j < Ny)%nat -> Z0 (pix Ny i j) = if (Nat.eqb i 1 && Nat.eqb j 1)%bool then RtoC 1 else if (Nat.eqb i 0 && Nat.eqb j 1)%bool then Ci else RtoC 0).
  { intros i j Hj. unfold Z0, pix.
    assert (forall a b c d, (b < Ny)%nat -> (d < Ny)%nat -> Nat.eqb (a * Ny + b) (c * Ny + d) = (Nat.eqb a c && Nat.eqb b d)%bool).
    { intros a b c d Hb Hd. destruct (Nat.eqb_spec (a * Ny + b) (c * Ny + d)) as [e|n].
      - destruct (flat2 a Ny b Hb) as [A1 A2]. destruct (flat2 c Ny d Hd) as [B1 B2]. rewrite e in A1, A2. rewrite B1 in A1. rewrite B2 in A2. subst. rewrite !Nat.eqb_refl. reflexivity.
      - destruct (Nat.eqb_spec a c), (Nat.eqb_spec b d); subst; try reflexivity. exfalso; apply n; reflexivity. }
    rewrite !H0 by lia. reflexivity. }
  rewrite !EV in H by lia. cbn [Nat.eqb andb] in H.
  assert (Hd: s_dl s = 1%R) by apply PL. rewrite Hd in H.
  assert (Hden: (0 < 4 * s_omega s * (MU_0 * s_L0 s) * 1)%R).
  { assert (0 < s_omega s)%R by apply PL. assert (0 < s_L0 s)%R by apply PL. assert (HM := MU_0_pos). repeat apply Rmult_lt_0_compat; lra. }
  set (den := (4 * s_omega s * (MU_0 * s_L0 s) * 1)%R) in *.
  autorewrite with reim in H. cbn [Re Im Ci RtoC fst snd] in H.
  assert (Hi: (0 < / den)%R) by (apply Rinv_0_lt_compat; exact Hden). unfold Rdiv in H. revert H. nra.
Qed.

(* ------------------------------------------------------------------ *)
(** ** C59 *)

(** power density through the interface between pixel (i,j) and its left neighbour: Hy
    lives there, and Ez is averaged over the two pixels *)
Definition interface_density (Nx Ny : nat) (z hy : vec) (i j : nat) : R :=
  let zm := ((z (pix Ny i j) + z (pix Ny (prev Nx i) j)) / RtoC 2)%C in
  let o := RtoC 0 in fst (poynting_vector o o zm o (hy (pix Ny i j)) o).
(** no source on column i *)
Definition source_free (s : sim) (i : nat) : Prop := forall j, (j < s_Ny s)%nat -> nd_buf (s_src s) (pix (s_Ny s) i j) = RtoC 0.

Lemma rsum_first n f : rsum (S n) f = (f O + rsum n (fun k => f (S k)))%R.
Proof. induction n; [cbn; ring|]. cbn [rsum] in *. rewrite IHn. ring. Qed.
Lemma rsum_next N f : rsum N (fun j => f (next N j)) = rsum N f.
Proof.
  destruct N as [|n]; [reflexivity|]. rewrite (rsum_first n f). cbn [rsum]. unfold next at 2. rewrite Nat.eqb_refl.
  rewrite Rplus_comm. f_equal. apply rsum_ext. intros k Hk. unfold next. destruct (Nat.eqb_spec (S k) (S n)); [lia|reflexivity].
Qed.
(** sums over a periodic column *)
Lemma rsum_swap_next N (f : nat -> nat -> R) : rsum N (fun j => f j (prev N j)) = rsum N (fun j => f (next N j) j).
Proof.
  rewrite <- (rsum_next N (fun j => f j (prev N j))). apply rsum_ext. intros k Hk. rewrite prev_next by assumption. reflexivity.
Qed.
Lemma rsum_swap_prev N (f : nat -> nat -> R) : rsum N (fun j => f (prev N j) j) = rsum N (fun j => f j (next N j)).
Proof. exact (rsum_swap_next N (fun a b => f b a)). Qed.

(** the wave equation on a source-free pixel *)
Lemma wave_equation e s s' d hx hy z av i j :
  plain_Ez s d -> solver_exact e -> nonsingular (s_M s) (s_A s) -> solve_fields e false av s = (s', Ok (hx, hy, z)) ->
  (i < s_Nx s)%nat -> (j < s_Ny s)%nat -> nd_buf (s_src s) (pix (s_Ny s) i j) = RtoC 0 ->
  let Nx := s_Nx s in let Ny := s_Ny s in
  let g := (s_omega s ^ 2 * (EPSILON_0 * s_L0 s) * (MU_0 * s_L0 s) * (d * d) * nd_buf (s_eps s) (pix Ny i j))%R in
  (z (pix Ny (next Nx i) j) + z (pix Ny (prev Nx i) j) =
   RtoC (4 - g) * z (pix Ny i j) - z (pix Ny i (next Ny j)) - z (pix Ny i (prev Ny j)))%C.
Proof.
  intros (HC & HP & HN & HD & Hd & Hdl & HNx & HNy & HL & Ho) He HA H Hi Hj H0 Nx Ny g.
  assert (S1 := solve_fields_solves e false av s _ _ _ _ He HA H (pix Ny i j) ltac:(apply flat_lt; assumption)).
  unfold used_matrix in S1. unfold rhs in S1. fold Ny in H0. rewrite H0 in S1.
  change (csum (s_M s) (fun c => (s_A s (pix Ny i j) c * z c)%C)) with (mv (s_M s) (s_A s) z (pix Ny i j)) in S1.
  destruct (consistent_A s HC) as [EA _]. rewrite EA, HP, HN in S1. unfold s_M, Ny in S1.
  rewrite (mv_construct_Ez_stencil _ _ _ _ _ _ _ _ d) in S1 by (try assumption; lra).
  fold Nx Ny in S1. unfold laplacian, s_epsC, cvec in S1.
  set (zp := z (pix Ny i j)) in *. set (ze := z (pix Ny (next Nx i) j)) in *. set (zw := z (pix Ny (prev Nx i) j)) in *.
  set (zn := z (pix Ny i (next Ny j))) in *. set (zs := z (pix Ny i (prev Ny j))) in *.
  set (ep := nd_buf (s_eps s) (pix Ny i j)) in *.
  assert (Hmu: (0 < MU_0 * s_L0 s)%R) by (apply Rmult_lt_0_compat; [apply MU_0_pos|lra]).
  assert (HmuC: RtoC (MU_0 * s_L0 s) <> RtoC 0) by (apply RtoC_neq0; lra).
  assert (HdC: RtoC (d * d) <> RtoC 0) by (apply RtoC_neq0; nra).
  assert (E0: ((ze + zw + zn + zs - RtoC 4 * zp) + RtoC g * zp)%C = RtoC 0).
  { transitivity (RtoC (MU_0 * s_L0 s) * RtoC (d * d) *
      (RtoC (1 / (MU_0 * s_L0 s)) * ((ze + zw + zn + zs - RtoC 4 * zp) / RtoC (d * d)) + RtoC (s_omega s ^ 2 * (EPSILON_0 * s_L0 s)) * RtoC ep * zp))%C.
    - unfold g. rewrite RtoC_div by lra. rewrite !(RtoC_mult _ ep), (RtoC_mult _ (d * d)), (RtoC_mult _ (MU_0 * s_L0 s)). field. split; assumption.
    - rewrite S1. ring. }
  rewrite RtoC_minus.
  transitivity ((ze + zw + zn + zs - RtoC 4 * zp + RtoC g * zp) + (RtoC 4 - RtoC g) * zp - zn - zs)%C; [ring|]. rewrite E0. ring.
Qed.

Lemma Ez_hy e s s' d hx hy z i j av :
  plain_Ez s d -> solve_fields e false av s = (s', Ok (hx, hy, z)) -> (i < s_Nx s)%nat -> (j < s_Ny s)%nat ->
  hy (pix (s_Ny s) i j) =
  (RtoC (/ (s_omega s * (MU_0 * s_L0 s) * d)) * (- Ci * (z (pix (s_Ny s) i j) - z (pix (s_Ny s) (prev (s_Nx s) i) j))))%C.
Proof.
  intros (HC & HP & HN & HD & Hd & Hdl & HNx & HNy & HL & Ho) H Hi Hj.
  apply solve_fields_ok in H as (_ & _ & H & _). unfold derived_fields in H. rewrite HP in H.
  destruct (consistent_A s HC) as [_ ED]. rewrite ED, HN in H. injection H as _ ->.
  assert (Hmu: (0 < MU_0 * s_L0 s)%R) by (apply Rmult_lt_0_compat; [apply MU_0_pos|lra]).
  unfold vscal, make_derivs, Dxb, s_M.
  rewrite make_deriv_no_pml by (apply flat_lt; assumption). rewrite HD; cbn [fst snd]. rewrite Dxb_stencil by (try assumption; lra). unfold diff_xb.
  rewrite RtoC_inv by (apply Rgt_not_eq; apply Rmult_lt_0_compat; [apply Rmult_lt_0_compat|]; lra). rewrite !RtoC_mult.
  assert (RtoC (s_omega s) <> RtoC 0) by (apply RtoC_neq0; lra). assert (RtoC MU_0 <> RtoC 0) by (apply RtoC_neq0; apply Rgt_not_eq, MU_0_pos).
  assert (RtoC (s_L0 s) <> RtoC 0) by (apply RtoC_neq0; lra). assert (RtoC d <> RtoC 0) by (apply RtoC_neq0; lra).
  assert (EC: (RtoC 1 / Ci = - Ci)%C). { assert (HI := Ci_neq0). transitivity (- (Ci * Ci) / Ci)%C; [f_equal; unfold Ci; apply injective_projections; cbn; ring|field; exact HI]. }
  rewrite EC. field. repeat split; assumption.
Qed.
Lemma Ez_interface e s s' d hx hy z i j av :
  plain_Ez s d -> solve_fields e false av s = (s', Ok (hx, hy, z)) -> (i < s_Nx s)%nat -> (j < s_Ny s)%nat ->
  interface_density (s_Nx s) (s_Ny s) z hy i j =
  (- (Im (z (pix (s_Ny s) i j) * Cconj (z (pix (s_Ny s) (prev (s_Nx s) i) j)))%C) / (2 * s_omega s * (MU_0 * s_L0 s) * d))%R.
Proof.
  intros PL H Hi Hj. unfold interface_density. rewrite (Ez_hy e s s' d hx hy z i j av PL H Hi Hj).
  destruct PL as (HC & HP & HN & HD & Hd & Hdl & HNx & HNy & HL & Ho). assert (HM := MU_0_pos).
  set (a := z (pix (s_Ny s) i j)). set (c := z (pix (s_Ny s) (prev (s_Nx s) i) j)). unfold poynting_vector; cbn [fst].
  unfold Cdiv. rewrite <- RtoC_inv by lra. autorewrite with reim. cbn [Re Im Ci fst snd RtoC]. field. repeat split; lra.
Qed.
Lemma Im_bilin a b : Im (a * Cconj b)%C = (Im a * Re b - Re a * Im b)%R.
Proof. autorewrite with reim. ring. Qed.
(** sum over column i of the products with column k *)
Definition col_flux (Ny : nat) (z : vec) (i k : nat) : R := rsum Ny (fun j => Im (z (pix Ny i j) * Cconj (z (pix Ny k j)))%C).
Lemma col_flux_anti Ny z i k : col_flux Ny z i k = (- col_flux Ny z k i)%R.
Proof. unfold col_flux. rewrite <- rsum_opp. apply rsum_ext. intros j _. rewrite !Im_bilin. ring. Qed.
Lemma col_flux_self Ny z i : col_flux Ny z i i = 0%R.
Proof. unfold col_flux. apply rsum_0. intros j _. rewrite Im_bilin. ring. Qed.

(** products of column k with the right-hand side of the wave equation on column i *)
Lemma col_wave e s s' d hx hy z av i k :
  plain_Ez s d -> solver_exact e -> nonsingular (s_M s) (s_A s) -> solve_fields e false av s = (s', Ok (hx, hy, z)) ->
  (i < s_Nx s)%nat -> source_free s i ->
  let Nx := s_Nx s in let Ny := s_Ny s in
  let g := fun j => (4 - s_omega s ^ 2 * (EPSILON_0 * s_L0 s) * (MU_0 * s_L0 s) * (d * d) * nd_buf (s_eps s) (pix Ny i j))%R in
  (col_flux Ny z (next Nx i) k + col_flux Ny z (prev Nx i) k =
   rsum Ny (fun j => g j * Im (z (pix Ny i j) * Cconj (z (pix Ny k j)))%C)
   - rsum Ny (fun j => Im (z (pix Ny i (next Ny j)) * Cconj (z (pix Ny k j)))%C)
   - rsum Ny (fun j => Im (z (pix Ny i (prev Ny j)) * Cconj (z (pix Ny k j)))%C))%R.
Proof.
  intros PL He HA H Hi HS Nx Ny g. unfold col_flux. rewrite <- rsum_plus, <- !rsum_minus. apply rsum_ext. intros j Hj.
  assert (E := wave_equation e s s' d hx hy z av i j PL He HA H Hi Hj (HS j Hj)). cbv zeta in E. fold Nx Ny in E. fold (g j) in E.
  rewrite !Im_bilin. assert (ER := f_equal Re E). assert (EI := f_equal Im E). autorewrite with reim in ER, EI.
  replace (Im (z (pix Ny (next Nx i) j)) * Re (z (pix Ny k j)) - Re (z (pix Ny (next Nx i) j)) * Im (z (pix Ny k j)) +
    (Im (z (pix Ny (prev Nx i) j)) * Re (z (pix Ny k j)) - Re (z (pix Ny (prev Nx i) j)) * Im (z (pix Ny k j))))%R
   with ((Im (z (pix Ny (next Nx i) j)) + Im (z (pix Ny (prev Nx i) j))) * Re (z (pix Ny k j))
      - (Re (z (pix Ny (next Nx i) j)) + Re (z (pix Ny (prev Nx i) j))) * Im (z (pix Ny k j)))%R by ring.
  rewrite ER, EI. cbn [Re Im RtoC fst snd]. ring.
Qed.

(** flux through the two sides of a source-free column *)
Lemma col_flux_conserved e s s' d hx hy z av i :
  plain_Ez s d -> solver_exact e -> nonsingular (s_M s) (s_A s) -> solve_fields e false av s = (s', Ok (hx, hy, z)) ->
  (i < s_Nx s)%nat -> source_free s i ->
  col_flux (s_Ny s) z (next (s_Nx s) i) i = col_flux (s_Ny s) z i (prev (s_Nx s) i).
Proof.
  intros PL He HA H Hi HS. assert (E := col_wave e s s' d hx hy z av i i PL He HA H Hi HS). cbv zeta in E.
  rewrite (col_flux_anti _ _ (prev _ _)) in E.
  rewrite (rsum_0 _ (fun j => _ * Im (z (pix (s_Ny s) i j) * Cconj (z (pix (s_Ny s) i j)))%C)%R) in E by (intros; rewrite Im_bilin; ring).
  rewrite (rsum_swap_prev (s_Ny s) (fun a b => Im (z (pix (s_Ny s) i a) * Cconj (z (pix (s_Ny s) i b)))%C)) in E.
  assert (X: rsum (s_Ny s) (fun j => Im (z (pix (s_Ny s) i j) * Cconj (z (pix (s_Ny s) i (next (s_Ny s) j))))%C) =
    (- rsum (s_Ny s) (fun j => Im (z (pix (s_Ny s) i (next (s_Ny s) j)) * Cconj (z (pix (s_Ny s) i j)))%C))%R).
  { rewrite <- rsum_opp. apply rsum_ext. intros j _. rewrite !Im_bilin. ring. }
  rewrite X in E. lra.
Qed.

(** The Poynting flux through the interfaces (Hy where it lives, Ez averaged over the two
    pixels beside it) is the same on both sides of every source-free column: any real
    permittivity, any source elsewhere, any solved field. *)
Theorem C59_interface_power_conserved :
  forall e s s' d hx hy z av i,
  plain_Ez s d -> solver_exact e -> nonsingular (s_M s) (s_A s) ->
  solve_fields e false av s = (s', Ok (hx, hy, z)) -> (i < s_Nx s)%nat -> source_free s i ->
  rsum (s_Ny s) (interface_density (s_Nx s) (s_Ny s) z hy i) =
  rsum (s_Ny s) (interface_density (s_Nx s) (s_Ny s) z hy (next (s_Nx s) i)).
Proof.
  intros e s s' d hx hy z av i PL He HA H Hi HS.
  assert (E := col_flux_conserved e s s' d hx hy z av i PL He HA H Hi HS).
  assert (G: forall k, (k < s_Nx s)%nat -> rsum (s_Ny s) (interface_density (s_Nx s) (s_Ny s) z hy k) =
     (- / (2 * s_omega s * (MU_0 * s_L0 s) * d) * col_flux (s_Ny s) z k (prev (s_Nx s) k))%R).
  { intros k Hk. unfold col_flux. rewrite <- rsum_scal. apply rsum_ext. intros j Hj.
    rewrite (Ez_interface e s s' d hx hy z k j av PL H Hk Hj). unfold Rdiv. ring. }
  rewrite !G by (try apply next_lt; assumption). rewrite prev_next by assumption. rewrite E. reflexivity.
Qed.

(** What the probe's own densities (Ez averaged towards the other side) add up to. *)
Theorem C59_column_sum :
  forall e s s' d hx hy z av i,
  plain_Ez s d -> solver_exact e -> nonsingular (s_M s) (s_A s) ->
  solve_fields e false av s = (s', Ok (hx, hy, z)) -> (S i < s_Nx s)%nat -> source_free s i ->
  rsum (s_Ny s) (density_x PolEz (s_Ny s) z hy i) =
  (- rsum (s_Ny s) (fun j => Im (z (pix (s_Ny s) (S i) j) * Cconj (z (pix (s_Ny s) (prev (s_Nx s) i) j)))%C)
   / (4 * s_omega s * (MU_0 * s_L0 s) * d))%R.
Proof.
  intros e s s' d hx hy z av i PL He HA H Hi HS.
  assert (E := col_flux_conserved e s s' d hx hy z av i PL He HA H ltac:(lia) HS).
  replace (next (s_Nx s) i) with (S i) in E by (unfold next; destruct (Nat.eqb_spec (S i) (s_Nx s)); [lia|reflexivity]).
  fold (col_flux (s_Ny s) z (S i) (prev (s_Nx s) i)).
  rewrite (rsum_ext (s_Ny s) _ (fun j => / (4 * s_omega s * (MU_0 * s_L0 s) * d) *
    (Im (z (pix (s_Ny s) (S i) j) * Cconj (z (pix (s_Ny s) i j)))%C - Im (z (pix (s_Ny s) i j) * Cconj (z (pix (s_Ny s) (prev (s_Nx s) i) j)))%C
     - Im (z (pix (s_Ny s) (S i) j) * Cconj (z (pix (s_Ny s) (prev (s_Nx s) i) j)))%C))%R).
  - rewrite rsum_scal, !rsum_minus. fold (col_flux (s_Ny s) z (S i) i) (col_flux (s_Ny s) z i (prev (s_Nx s) i)) (col_flux (s_Ny s) z (S i) (prev (s_Nx s) i)).
    rewrite E. unfold Rdiv. ring.
  - intros j Hj. rewrite (Ez_density_x e s s' d hx hy z i j av PL H ltac:(lia) Hj). unfold Rdiv. rewrite !Im_bilin. autorewrite with reim. ring.
Qed.

(** Two neighbouring source-free columns with the same permittivity (a straight
    waveguide): both sums are the same. *)
Theorem C59_straight_waveguide_partial :
  forall e s s' d hx hy z av i,
  plain_Ez s d -> solver_exact e -> nonsingular (s_M s) (s_A s) ->
  solve_fields e false av s = (s', Ok (hx, hy, z)) -> (S (S i) < s_Nx s)%nat -> source_free s i -> source_free s (S i) ->
  (forall j, (j < s_Ny s)%nat -> nd_buf (s_eps s) (pix (s_Ny s) i j) = nd_buf (s_eps s) (pix (s_Ny s) (S i) j)) ->
  rsum (s_Ny s) (density_x PolEz (s_Ny s) z hy i) = rsum (s_Ny s) (density_x PolEz (s_Ny s) z hy (S i)).
Proof.
  intros e s s' d hx hy z av i PL He HA H Hi HS HS2 Heps.
  rewrite (C59_column_sum e s s' d hx hy z av i PL He HA H ltac:(lia) HS).
  rewrite (C59_column_sum e s s' d hx hy z av (S i) PL He HA H Hi HS2).
  f_equal. f_equal.
  fold (col_flux (s_Ny s) z (S i) (prev (s_Nx s) i)) (col_flux (s_Ny s) z (S (S i)) (prev (s_Nx s) (S i))).
  change (prev (s_Nx s) (S i)) with i.
  assert (N1: next (s_Nx s) i = S i) by (unfold next; destruct (Nat.eqb_spec (S i) (s_Nx s)); [lia|reflexivity]).
  assert (N2: next (s_Nx s) (S i) = S (S i)) by (unfold next; destruct (Nat.eqb_spec (S (S i)) (s_Nx s)); [lia|reflexivity]).
  assert (E1 := col_wave e s s' d hx hy z av i (S i) PL He HA H ltac:(lia) HS). cbv zeta in E1. rewrite N1, col_flux_self in E1.
  assert (E2 := col_wave e s s' d hx hy z av (S i) i PL He HA H ltac:(lia) HS2). cbv zeta in E2. rewrite N2 in E2.
  change (prev (s_Nx s) (S i)) with i in E2. rewrite col_flux_self in E2.
  rewrite (rsum_swap_prev (s_Ny s) (fun a b => Im (z (pix (s_Ny s) (S i) a) * Cconj (z (pix (s_Ny s) i b)))%C)) in E2.
  rewrite <- (rsum_swap_next (s_Ny s) (fun a b => Im (z (pix (s_Ny s) (S i) a) * Cconj (z (pix (s_Ny s) i b)))%C)) in E2.
  set (X1 := rsum (s_Ny s) (fun j => _ * Im (z (pix (s_Ny s) i j) * Cconj (z (pix (s_Ny s) (S i) j)))%C)%R) in E1.
  set (X2 := rsum (s_Ny s) (fun j => Im (z (pix (s_Ny s) i (next (s_Ny s) j)) * Cconj (z (pix (s_Ny s) (S i) j)))%C)) in E1.
  set (X3 := rsum (s_Ny s) (fun j => Im (z (pix (s_Ny s) i (prev (s_Ny s) j)) * Cconj (z (pix (s_Ny s) (S i) j)))%C)) in E1.
  set (Y1 := rsum (s_Ny s) (fun j => _ * Im (z (pix (s_Ny s) (S i) j) * Cconj (z (pix (s_Ny s) i j)))%C)%R) in E2.
  set (Y2 := rsum (s_Ny s) (fun j => Im (z (pix (s_Ny s) (S i) j) * Cconj (z (pix (s_Ny s) i (prev (s_Ny s) j))))%C)) in E2.
  set (Y3 := rsum (s_Ny s) (fun j => Im (z (pix (s_Ny s) (S i) j) * Cconj (z (pix (s_Ny s) i (next (s_Ny s) j))))%C)) in E2.
  assert (R1: Y1 = (- X1)%R). { unfold Y1, X1. rewrite <- rsum_opp. apply rsum_ext. intros j Hj. rewrite (Heps j Hj), !Im_bilin. ring. }
  assert (R2: Y2 = (- X3)%R). { unfold Y2, X3. rewrite <- rsum_opp. apply rsum_ext. intros j Hj. rewrite !Im_bilin. ring. }
  assert (R3: Y3 = (- X2)%R). { unfold Y3, X2. rewrite <- rsum_opp. apply rsum_ext. intros j Hj. rewrite !Im_bilin. ring. }
  rewrite (col_flux_anti _ _ (S i) (prev (s_Nx s) i)). lra.
Qed.

(** The same for the probe itself: lines over all rows but the last, where the field
    vanishes (a line over all rows is refused, see below). *)
Theorem C59_probe_on_straight_waveguide_partial :
  forall e s s' d hx hy z av i,
  plain_Ez s d -> solver_exact e -> nonsingular (s_M s) (s_A s) ->
  solve_fields e false av s = (s', Ok (hx, hy, z)) -> (S (S i) < s_Nx s)%nat -> source_free s i -> source_free s (S i) ->
  (forall j, (j < s_Ny s)%nat -> nd_buf (s_eps s) (pix (s_Ny s) i j) = nd_buf (s_eps s) (pix (s_Ny s) (S i) j)) ->
  (forall k, (k < s_Nx s)%nat -> z (pix (s_Ny s) k (s_Ny s - 1)) = RtoC 0) ->
  exists P, flux_probe "x" (Z.of_nat i, Z.of_nat (s_Ny s / 2)) (Z.of_nat (s_Ny s - 1)) false s' = Ok P /\
            flux_probe "x" (Z.of_nat (S i), Z.of_nat (s_Ny s / 2)) (Z.of_nat (s_Ny s - 1)) false s' = Ok P.
Proof.
  intros e s s' d hx hy z av i PL He HA H Hi HS HS2 Heps Hz.
  assert (E := C59_straight_waveguide_partial e s s' d hx hy z av i PL He HA H Hi HS HS2 Heps).
  assert (HD: forall k, (S k < s_Nx s)%nat -> density_x PolEz (s_Ny s) z hy k (s_Ny s - 1) = 0%R).
  { intros k Hk. rewrite (Ez_density_x e s s' d hx hy z k _ av PL H) by (assert (2 <= s_Ny s)%nat by apply PL; lia). rewrite !Hz by lia.
    autorewrite with reim. cbn [Re Im RtoC fst snd]. unfold Rdiv; ring. }
  assert (H0 := H). apply solve_fields_lin_state in H0 as (G & [(? & _)|(_ & X & _ & F1 & R1)]); [discriminate|].
  cbv zeta in *. injection R1 as -> -> ->. set (D := derived_fields s (s_epsC s) av X) in *.
  assert (Hp: s_pol s = PolEz) by apply PL. assert (HNy: (2 <= s_Ny s)%nat) by apply PL. rewrite Hp in F1.
  unfold same_problem in G.
  assert (P1: s_pol s' = PolEz) by intuition congruence. assert (P2: s_Nx s' = s_Nx s) by intuition congruence.
  assert (P3: s_Ny s' = s_Ny s) by intuition congruence. assert (P4: s_dl s' = s_dl s) by intuition congruence.
  assert (L: forall k, (S k < s_Nx s)%nat -> flux_probe "x" (Z.of_nat k, Z.of_nat (s_Ny s / 2)) (Z.of_nat (s_Ny s - 1)) false s' =
     Ok (s_dl s * rsum (s_Ny s) (density_x PolEz (s_Ny s) X (snd D) k))%R).
  { intros k Hk.
    assert (Q: (Z.of_nat (s_Ny s / 2) - (Z.of_nat (s_Ny s - 1) + 1) / 2 = 0)%Z).
    { rewrite Nat2Z.inj_div. replace (Z.of_nat (s_Ny s - 1) + 1)%Z with (Z.of_nat (s_Ny s)) by lia. change (Z.of_nat 2) with 2%Z. lia. }
    destruct (C58_exactly_width_pixels_partial s' false X (fst D) (snd D) (Z.of_nat k) (Z.of_nat (s_Ny s / 2)) (Z.of_nat (s_Ny s - 1))) as [L _];
      try (unfold probe_fields; rewrite P1, F1; reflexivity); [lia|].
    rewrite L by (rewrite ?P2, ?P3, ?Q; lia). rewrite P1, P3, P4, Q, !Nat2Z.id. cbn [Z.to_nat Nat.add]. do 2 f_equal.
    assert (RL: forall N f, (1 <= N)%nat -> rsum N f = (rsum (N - 1) f + f (N - 1)%nat)%R).
    { intros [|n] f Hn; [lia|]. replace (S n - 1)%nat with n by lia. reflexivity. }
    rewrite (RL (s_Ny s)) by lia. rewrite HD by assumption. rewrite Rplus_0_r. reflexivity. }
  exists (s_dl s * rsum (s_Ny s) (density_x PolEz (s_Ny s) X (snd D) i))%R. split; [apply L; lia|]. rewrite L by lia. do 2 f_equal. symmetry; exact E.
Qed.

(** The property as claimed: lines over the whole height ... *)
Definition C59_property : Prop :=
  forall e s s' hx hy z i c1 w, reachable e s -> plain_Ez s (s_dl s) -> solver_exact e -> nonsingular (s_M s) (s_A s) ->
  solve_fields e false true s = (s', Ok (hx, hy, z)) -> (S (S i) < s_Nx s)%nat -> source_free s i -> source_free s (S i) ->
  w = Z.of_nat (s_Ny s) -> (c1 - (w + 1) / 2 = 0)%Z ->
  exists P, flux_probe "x" (Z.of_nat i, c1) w false s' = Ok P /\ flux_probe "x" (Z.of_nat (S i), c1) w false s' = Ok P.
(** ... or any line, when the field does not vary along the line *)
Definition C59_property_uniform : Prop :=
  forall e s s' hx hy z i c1 w, reachable e s -> plain_Ez s (s_dl s) -> solver_exact e -> nonsingular (s_M s) (s_A s) ->
  solve_fields e false true s = (s', Ok (hx, hy, z)) -> (S (S i) < s_Nx s)%nat -> source_free s i -> source_free s (S i) ->
  (forall k j, (k < s_Nx s)%nat -> (j < s_Ny s)%nat -> z (pix (s_Ny s) k j) = z (pix (s_Ny s) k 0)) ->
  (0 <= w)%Z -> (0 <= c1 - (w + 1) / 2)%Z -> (c1 - (w + 1) / 2 + w < Z.of_nat (s_Ny s))%Z ->
  exists P, flux_probe "x" (Z.of_nat i, c1) w false s' = Ok P /\ flux_probe "x" (Z.of_nat (S i), c1) w false s' = Ok P.

Theorem C59_full_height_refuted : ~ C59_property.
Proof.
  intro HP. destruct (fam_sim_ok "Ez" 4 4 0 0 (fun _ => 1%R) (or_introl eq_refl)) as [s Hs].
  destruct (fam_plain _ _ _ _ Hs ltac:(lia) ltac:(lia) ltac:(intros; lra)) as (PL & HR & HN & E1 & E2 & E3 & E4 & E5).
  assert (Hp: s_pol s = PolEz) by apply PL. assert (Ho: s_omega s <> 0%R) by (apply Rgt_not_eq; apply PL).
  assert (Hdl: s_dl s = 1%R) by apply PL.
  destruct (field_by_source ex_env s vzero ex_env_exact HN Hp Ho) as (hx & hy & X & HS & _ & _).
  assert (HR': reachable ex_env (upd_src (src_for s vzero) s)) by (apply reachable_src; apply HR).
  assert (SF: forall i, source_free (upd_src (src_for s vzero) s) i).
  { intros i j Hj. cbn [upd_src s_src src_for nd_buf]. unfold mv. rewrite csum_0; [unfold Cdiv; ring|]. intros; unfold vzero; ring. }
  destruct (HP ex_env _ _ hx hy X 0%nat 2%Z 4%Z HR' ltac:(cbn [upd_src s_dl]; rewrite Hdl; exact PL) ex_env_exact HN HS) as (P & HP1 & _);
    cbn [upd_src s_Nx s_Ny]; rewrite ?E1, ?E2; try apply SF; try lia; try reflexivity.
  rewrite (C58_line_to_the_border_raises _ false X hy) in HP1; try discriminate; try lia; cbn -[Z.of_nat]; rewrite ?Hp, ?E1, ?E2; try reflexivity; try (cbn; lia).
Qed.

(** A wave crossing a permittivity step: the probe reports different powers on the two
    sides although no power is lost. *)
Theorem C59_step_refuted : ~ C59_property_uniform.
Proof.
  intro HP. set (eps := fun k => if Nat.eqb (k / 3) 3 then 2%R else 1%R).
  destruct (fam_sim_ok "Ez" 6 3 0 0 eps (or_introl eq_refl)) as [s Hs].
  destruct (fam_plain _ _ _ _ Hs ltac:(lia) ltac:(lia) ltac:(intros k _; unfold eps; destruct (Nat.eqb _ _); lra)) as (PL & HR & HN & E1 & E2 & E3 & E4 & E5).
  assert (Hp: s_pol s = PolEz) by apply PL. assert (Ho: s_omega s <> 0%R) by (apply Rgt_not_eq; apply PL).
  assert (Hdl: s_dl s = 1%R) by apply PL. assert (HMU := MU_0_pos).
  set (prof := fun i => match i with 1%nat => RtoC 1 | 2%nat => Ci | 3%nat => (-1, -14)%R | 4%nat => (30, 419)%R | _ => RtoC 0 end).
  set (Z0 := fun k => prof (k / 3)%nat).
  destruct (field_by_source ex_env s Z0 ex_env_exact HN Hp Ho) as (hx & hy & X & HS & HX & _).
  set (s1 := upd_src (src_for s Z0) s) in *.
  assert (HR': reachable ex_env s1) by (apply reachable_src; apply HR).
  assert (ZV: forall i j, (j < 3)%nat -> Z0 (pix 3 i j) = prof i) by (intros i j Hj; unfold Z0, pix; destruct (flat2 i 3 j Hj) as [-> _]; reflexivity).
  assert (SF: forall i, i = 2%nat \/ i = 3%nat -> source_free s1 i).
  { intros i Hi j Hj. unfold s1. cbn [upd_src s_src src_for nd_buf s_Ny]. change (s_Ny s1) with (s_Ny s) in Hj.
    destruct PL as (HC & _ & HNP & HD & _ & _ & HNx & HNy & HL & _). destruct (consistent_A s HC) as [EA _]. rewrite EA, HNP, Hp. unfold s_M.
    rewrite (mv_construct_Ez_stencil _ _ _ _ _ _ _ _ 1%R) by (try assumption; lia || lra).
    unfold laplacian. rewrite E1, E2, E4, E5 in *. assert (Nj: (next 3 j < 3)%nat) by (apply next_lt; lia). assert (Pj: (prev 3 j < 3)%nat) by (apply prev_lt; lia).
    rewrite !ZV by assumption. unfold s_epsC, cvec. rewrite E3. unfold eps, pix. destruct (flat2 i 3 j Hj) as [-> _].
    rewrite !Rmult_1_r.
    assert (EO: (ex_omega ^ 2 * EPSILON_0 = 16 * / MU_0)%R) by (rewrite <- ex_omega_sq; field; lra). rewrite EO.
    replace (1 / MU_0)%R with (/ MU_0)%R by (field; lra).
    match goal with |- (?x / _ = _)%C => replace x with (RtoC 0); [unfold Cdiv; ring|] end.
    destruct Hi as [-> | ->]; cbn [next prev Nat.eqb prof Nat.sub]; unfold Cdiv; rewrite <- RtoC_inv by lra;
      apply injective_projections; cbn [fst snd RtoC Cmult Cplus Cminus Copp Ci]; field; lra. }
  assert (XV: forall i j, (i < 6)%nat -> (j < 3)%nat -> X (pix 3 i j) = prof i).
  { intros i j Hi Hj. rewrite HX; [apply ZV; exact Hj|]. unfold s_M. rewrite E1, E2. apply flat_lt; assumption. }
  destruct (HP ex_env s1 _ hx hy X 2%nat 1%Z 1%Z HR' ltac:(change (s_dl s1) with (s_dl s); rewrite Hdl; apply plain_upd_src; exact PL) ex_env_exact HN HS) as (P & HP1 & HP2);
    change (s_Nx s1) with (s_Nx s); change (s_Ny s1) with (s_Ny s); rewrite ?E1, ?E2; try (apply SF; auto; fail); try (cbn; lia).
  { intros k j Hk Hj. rewrite !XV by lia. reflexivity. }
  set (s2 := upd_fields _ _) in *.
  assert (G := fun c0 => C58_odd_width_shifted s2 false X hx hy c0 1 0).
  change (s_pol s2) with (s_pol s) in G. change (s_Nx s2) with (s_Nx s) in G. change (s_Ny s2) with (s_Ny s) in G. change (s_dl s2) with (s_dl s) in G.
  rewrite Hp, E1, E2 in G. change (2 * Z.of_nat 0 + 1)%Z with 1%Z in G. change (Z.of_nat 1) with 1%Z in G.
  rewrite (G 2%nat) in HP1 by (reflexivity || lia). rewrite (G 3%nat) in HP2 by (reflexivity || lia).
  rewrite <- HP2 in HP1. apply (f_equal (fun r => match r with Ok P => P | Raise _ => 0%R end)) in HP1. cbv beta iota in HP1.
  rewrite Hdl in HP1. cbn [Nat.mul Nat.add Nat.sub rsum] in HP1.
  assert (D := fun i => Ez_density_x ex_env _ _ 1%R _ _ _ i 0%nat true (plain_upd_src _ _ (src_for s Z0) PL) HS).
  cbn [upd_src s_Nx s_Ny s_omega s_L0] in D. rewrite E1, E2 in D. rewrite !D in HP1 by lia. cbn [prev Nat.sub] in HP1.
  rewrite !XV in HP1 by lia. cbn [prof] in HP1.
  assert (Hden: (0 < 4 * s_omega s * (MU_0 * s_L0 s) * 1)%R).
  { assert (0 < s_omega s)%R by apply PL. assert (0 < s_L0 s)%R by apply PL. repeat apply Rmult_lt_0_compat; lra. }
  set (den := (4 * s_omega s * (MU_0 * s_L0 s) * 1)%R) in *.
  cbn [Im Cmult Cplus Cminus Copp Cconj RtoC Ci fst snd] in HP1.
  assert (Hi: (0 < / den)%R) by (apply Rinv_0_lt_compat; exact Hden). unfold Rdiv in HP1. revert HP1. nra.
Qed.

(** ** The hypotheses are met *)
Example C58_met :
  exists s s' hx hy z, reachable ex_env s /\ solver_exact ex_env /\ nonsingular (s_M s) (s_A s) /\
    solve_fields ex_env false true s = (s', Ok (hx, hy, z)) /\
    probe_fields false s' (pol_comp (s_pol s')) = Some z /\ probe_fields false s' Hx = Some hx /\ probe_fields false s' Hy = Some hy /\
    (2 + 1 < s_Nx s')%nat /\ (1 < 2)%nat /\ (2 + 1 < s_Ny s')%nat /\ z (pix (s_Ny s') 2 2) = Ci /\
    flux_probe "x" (2%Z, 2%Z) 3 false s' =
      Ok (s_dl s * (density_x PolEz (s_Ny s) z hy 2 0 + density_x PolEz (s_Ny s) z hy 2 1 + density_x PolEz (s_Ny s) z hy 2 2))%R.
Proof.
  destruct (fam_sim_ok "Ez" 4 5 0 0 (fun _ => 1%R) (or_introl eq_refl)) as [s Hs].
  destruct (fam_plain _ _ _ _ Hs ltac:(lia) ltac:(lia) ltac:(intros; lra)) as (PL & HR & HN & E1 & E2 & E3 & E4 & E5).
  assert (Hp: s_pol s = PolEz) by apply PL. assert (Ho: s_omega s <> 0%R) by (apply Rgt_not_eq; apply PL).
  destruct (field_by_source ex_env s (fun _ => Ci) ex_env_exact HN Hp Ho) as (hx & hy & X & HS & HX & _).
  assert (HR': reachable ex_env (upd_src (src_for s (fun _ => Ci)) s)) by (apply reachable_src; apply HR).
  exists (upd_src (src_for s (fun _ => Ci)) s). do 4 eexists.
  split; [exact HR'|]. split; [exact ex_env_exact|]. split; [exact HN|]. split; [exact HS|].
  set (s' := upd_fields _ _).
  assert (P0: s_pol s' = PolEz) by exact Hp. assert (P1: s_Nx s' = 4%nat) by exact E1. assert (P2: s_Ny s' = 5%nat) by exact E2.
  assert (F1: probe_fields false s' (pol_comp (s_pol s')) = Some X) by (rewrite P0; reflexivity).
  assert (F2: probe_fields false s' Hx = Some hx) by reflexivity. assert (F3: probe_fields false s' Hy = Some hy) by reflexivity.
  repeat split; try assumption; try (rewrite ?P1, ?P2; lia).
  - apply HX. unfold s_M. rewrite P2, E1, E2. cbn. lia.
  - assert (G := C58_odd_width_shifted s' false X hx hy 2 2 1). rewrite P0 in G. specialize (G eq_refl F2 F3 ltac:(rewrite P1; lia) ltac:(lia) ltac:(rewrite P2; lia)).
    change (Z.of_nat 2) with 2%Z in G. change (2 * Z.of_nat 1 + 1)%Z with 3%Z in G. rewrite G. f_equal.
    change (s_dl s') with (s_dl (upd_src (src_for s (fun _ => Ci)) s)). change (s_Ny s') with (s_Ny (upd_src (src_for s (fun _ => Ci)) s)).
    cbn [Nat.mul Nat.add Nat.sub rsum]. rewrite Rplus_0_l. reflexivity.
Qed.

(** a wave in a straight guide: rows 0 and 1 carry opposite fields, row 2 none *)
Example C59_met :
  exists s s' hx hy z, reachable ex_env s /\ plain_Ez s 1 /\ solver_exact ex_env /\ nonsingular (s_M s) (s_A s) /\
    solve_fields ex_env false true s = (s', Ok (hx, hy, z)) /\ (S (S 2) < s_Nx s)%nat /\ source_free s 2 /\ source_free s 3 /\
    (forall j, (j < s_Ny s)%nat -> nd_buf (s_eps s) (pix (s_Ny s) 2 j) = nd_buf (s_eps s) (pix (s_Ny s) 3 j)) /\
    (forall k, (k < s_Nx s)%nat -> z (pix (s_Ny s) k (s_Ny s - 1)) = RtoC 0) /\
    z (pix (s_Ny s) 2 0) = Ci /\ z (pix (s_Ny s) 1 0) = RtoC 1.
Proof.
  destruct (fam_sim_ok "Ez" 6 3 0 0 (fun _ => 1%R) (or_introl eq_refl)) as [s Hs].
  destruct (fam_plain _ _ _ _ Hs ltac:(lia) ltac:(lia) ltac:(intros; lra)) as (PL & HR & HN & E1 & E2 & E3 & E4 & E5).
  assert (Hp: s_pol s = PolEz) by apply PL. assert (Ho: s_omega s <> 0%R) by (apply Rgt_not_eq; apply PL). assert (HMU := MU_0_pos).
  set (prof := fun i => match i with 1%nat => RtoC 1 | 2%nat => Ci | 3%nat => (-1, -11)%R | 4%nat => (11, 120)%R | _ => RtoC 0 end).
  set (Z0 := fun k => match (k mod 3)%nat with O => prof (k / 3)%nat | 1%nat => (- prof (k / 3)%nat)%C | _ => RtoC 0 end).
  destruct (field_by_source ex_env s Z0 ex_env_exact HN Hp Ho) as (hx & hy & X & HS & HX & _).
  set (s1 := upd_src (src_for s Z0) s) in *.
  assert (ZV: forall i j, (j < 3)%nat -> Z0 (pix 3 i j) = match j with O => prof i | 1%nat => (- prof i)%C | _ => RtoC 0 end)
    by (intros i j Hj; unfold Z0, pix; destruct (flat2 i 3 j Hj) as [-> ->]; reflexivity).
  assert (XV: forall i j, (i < 6)%nat -> (j < 3)%nat -> X (pix 3 i j) = match j with O => prof i | 1%nat => (- prof i)%C | _ => RtoC 0 end).
  { intros i j Hi Hj. rewrite HX; [apply ZV; exact Hj|]. unfold s_M. rewrite E1, E2. apply flat_lt; assumption. }
  assert (SF: forall i, i = 2%nat \/ i = 3%nat -> source_free s1 i).
  { intros i Hi j Hj. unfold s1. cbn [upd_src s_src src_for nd_buf s_Ny]. change (s_Ny s1) with (s_Ny s) in Hj.
    destruct PL as (HC & _ & HNP & HD & _ & _ & HNx & HNy & HL & _). destruct (consistent_A s HC) as [EA _]. rewrite EA, HNP, Hp. unfold s_M.
    rewrite (mv_construct_Ez_stencil _ _ _ _ _ _ _ _ 1%R) by (try assumption; lia || lra).
    unfold laplacian. rewrite E1, E2, E4, E5 in *. assert (Nj: (next 3 j < 3)%nat) by (apply next_lt; lia). assert (Pj: (prev 3 j < 3)%nat) by (apply prev_lt; lia).
    rewrite !ZV by assumption. unfold s_epsC, cvec. rewrite E3, !Rmult_1_r.
    assert (EO: (ex_omega ^ 2 * EPSILON_0 = 16 * / MU_0)%R) by (rewrite <- ex_omega_sq; field; lra). rewrite EO.
    replace (1 / MU_0)%R with (/ MU_0)%R by (field; lra).
    match goal with |- (?x / _ = _)%C => replace x with (RtoC 0); [unfold Cdiv; ring|] end.
    destruct Hi as [-> | ->]; destruct j as [|[|[|j]]]; try lia; cbn [next prev Nat.eqb prof Nat.sub]; unfold Cdiv; rewrite <- RtoC_inv by lra;
      apply injective_projections; cbn [fst snd RtoC Cmult Cplus Cminus Copp Ci]; field; lra. }
  exists s1. do 4 eexists. split; [apply reachable_src; apply HR|]. split; [apply plain_upd_src; exact PL|]. split; [exact ex_env_exact|].
  split; [exact HN|]. split; [exact HS|]. change (s_Nx s1) with (s_Nx s). change (s_Ny s1) with (s_Ny s). change (s_eps s1) with (s_eps s). rewrite E1, E2.
  split; [lia|]. split; [apply SF; auto|]. split; [apply SF; auto|]. split; [intros; rewrite !E3; reflexivity|].
  split; [intros k Hk; rewrite XV by lia; reflexivity|]. split; rewrite XV by lia; reflexivity.
Qed.

Example C60_met :
  exists s src src2 s1 s2 r1 r2, reachable ex_env s /\ solver_exact ex_env /\ nonsingular (s_M s) (s_A s) /\
    (forall k, (k < s_M s)%nat -> nd_buf src2 k = (Ci * nd_buf src k)%C) /\
    (exists k, (k < s_M s)%nat /\ nd_buf src k = RtoC 1) /\
    solve_fields ex_env false false (upd_src src s) = (s1, Ok r1) /\
    solve_fields ex_env false false (upd_src src2 s) = (s2, Ok r2) /\
    exists P, flux_probe "x" (1%Z, 2%Z) 2 false s1 = Ok P.
Proof.
  destruct (fam_sim_ok "Ez" 4 5 0 0 (fun _ => 1%R) (or_introl eq_refl)) as [s Hs].
  destruct (fam_plain _ _ _ _ Hs ltac:(lia) ltac:(lia) ltac:(intros; lra)) as (PL & HR & HN & E1 & E2 & E3 & E4 & E5).
  assert (Hp: s_pol s = PolEz) by apply PL.
  set (a := mkNd 4 5 (fun _ => RtoC 1)). set (b := mkNd 4 5 (fun _ => (Ci * RtoC 1)%C)).
  assert (SZ: forall c, nd_nx c = 4%nat -> nd_ny c = 5%nat -> nd_size (s_src (upd_src c s)) = s_M (upd_src c s)).
  { intros c H1 H2. unfold nd_size, s_M. cbn [upd_src s_src s_Nx s_Ny]. rewrite H1, H2, E1, E2. reflexivity. }
  destruct (solve_fields_lin ex_env false (upd_src a s) (SZ a eq_refl eq_refl)) as (X1 & _ & H1). cbv zeta in H1.
  destruct (solve_fields_lin ex_env false (upd_src b s) (SZ b eq_refl eq_refl)) as (X2 & _ & H2). cbv zeta in H2.
  exists s, a, b. do 4 eexists. split; [apply HR|]. split; [exact ex_env_exact|]. split; [exact HN|].
  split; [intros k _; reflexivity|]. split; [exists 0%nat; split; [unfold s_M; rewrite E1, E2; lia|reflexivity]|].
  split; [exact H1|]. split; [exact H2|].
  change (s_pol (upd_src a s)) with (s_pol s). rewrite Hp. set (D := derived_fields _ _ _ _). set (s' := upd_fields _ _).
  assert (P0: s_pol s' = PolEz) by exact Hp. assert (P1: s_Nx s' = 4%nat) by exact E1. assert (P2: s_Ny s' = 5%nat) by exact E2.
  destruct (C58_exactly_width_pixels_partial s' false X1 (fst D) (snd D) 1 2 2) as [G _]; try (rewrite P0; reflexivity); [lia|].
  eexists. apply G; rewrite ?P1, ?P2; cbn; lia.
Qed.
