(** C55, C56, C57: mode sources and the input power. *)
From Coq Require Import Reals Lra Lia List ZArith Arith Bool String ClassicalEpsilon.
From Coquelicot Require Import Coquelicot.
From Verif Require Import Base Linear MCore MSim MFilter MOpt MMode Spec PCore PSim PEx PExOpt PMode PropsCore PropsSolve PropsLin PropsOpt3 PropsFlux.
Import ListNotations.
Local Open Scope string_scope.

(* ------------------------------------------------------------------ *)
(** ** Specification *)

(** index i belongs to the python slice a:b of an axis with N entries (negative bounds
    count from the end) *)
Definition in_slice (N : nat) (a b : Z) (i : nat) : Prop :=
  let pos := fun x => (if x <? 0 then Z.max 0 (x + Z.of_nat N) else x)%Z in
  (pos a <= Z.of_nat i < pos b)%Z /\ (i < N)%nat.
(** half of x, towards zero *)
Definition half (x : Z) : Z := Z.quot x 2.
(** the source line of a mode *)
Definition on_line (m : mode) (Nx Ny i j : nat) : Prop :=
  let '(c0, c1) := md_center m in let w := md_width m in
  (md_normal m = "x" /\ in_slice Nx c0 (c0 + 1) i /\ in_slice Ny (half (2 * c1 - w)) (half (2 * c1 + w)) j) \/
  (md_normal m = "y" /\ in_slice Nx (half (2 * c0 - w)) (half (2 * c0 + w)) i /\ in_slice Ny c1 (c1 + 1) j).

Lemma in_slice_bounds N a b i :
  in_slice N a b i <-> (slice_bound N a <= i < slice_bound N b)%nat.
Proof.
  unfold in_slice, slice_bound. destruct (Z.ltb_spec a 0), (Z.ltb_spec b 0); lia.
Qed.
Lemma line_inds_on m Nx Ny i j i0 i1 j0 j1 :
  line_inds (md_normal m) (md_center m) (md_width m) = Ok (i0, i1, j0, j1) ->
  (on_line m Nx Ny i j <-> in_slice Nx i0 i1 i /\ in_slice Ny j0 j1 j).
Proof.
  unfold line_inds, on_line, half. destruct (md_center m) as [c0 c1]. cbn [fst snd].
  destruct (String.eqb_spec (md_normal m) "x") as [E|E].
  - intro H; injection H as <- <- <- <-. rewrite E. split; [intros [(_ & H)|(H & _)]; [exact H|discriminate]|intro H; left; auto].
  - destruct (String.eqb_spec (md_normal m) "y") as [E2|E2]; [|discriminate].
    intro H; injection H as <- <- <- <-. rewrite E2. split; [intros [(H & _)|(_ & H)]; [discriminate|exact H]|intro H; right; auto].
Qed.
Lemma assign_at {T} (a v d : nd T) i0 i1 j0 j1 i j :
  nd_assign a i0 i1 j0 j1 v = Ok d -> (j < nd_ny a)%nat ->
  nd_nx d = nd_nx a /\ nd_ny d = nd_ny a /\
  (in_slice (nd_nx a) i0 i1 i /\ in_slice (nd_ny a) j0 j1 j ->
     nd_at d i j = nd_at v (bidx (nd_nx v) (i - slice_bound (nd_nx a) i0)) (bidx (nd_ny v) (j - slice_bound (nd_ny a) j0))) /\
  (~ (in_slice (nd_nx a) i0 i1 i /\ in_slice (nd_ny a) j0 j1 j) -> nd_at d i j = nd_at a i j).
Proof.
  unfold nd_assign. destruct (_ && _)%bool; [|discriminate]. intros H Hj; injection H as <-. cbn [nd_nx nd_ny].
  split; [reflexivity|]. split; [reflexivity|]. rewrite !in_slice_bounds.
  set (d := mkNd _ _ _).
  assert (D: nd_at d i j = if (Nat.leb (slice_bound (nd_nx a) i0) i && Nat.ltb i (slice_bound (nd_nx a) i1) &&
       Nat.leb (slice_bound (nd_ny a) j0) j && Nat.ltb j (slice_bound (nd_ny a) j1))%bool
     then nd_at v (bidx (nd_nx v) (i - slice_bound (nd_nx a) i0)) (bidx (nd_ny v) (j - slice_bound (nd_ny a) j0)) else nd_at a i j).
  { unfold nd_at at 1. unfold d; cbn [nd_buf nd_ny]. destruct (flat2 i (nd_ny a) j Hj) as [-> ->]. reflexivity. }
  rewrite D. clear D.
  destruct (Nat.leb_spec (slice_bound (nd_nx a) i0) i), (Nat.ltb_spec i (slice_bound (nd_nx a) i1)),
    (Nat.leb_spec (slice_bound (nd_ny a) j0) j), (Nat.ltb_spec j (slice_bound (nd_ny a) j1)); cbn [andb]; split; intro Q;
    try reflexivity; exfalso; lia.
Qed.

(* ------------------------------------------------------------------ *)
(** ** C55 *)

(** Only the source line is written, and what is written is real. *)
Theorem C55_only_the_line_is_written :
  forall e m s s', setup_src e m s = (s', Ok tt) ->
  forall i j, (i < nd_nx (s_src s))%nat -> (j < nd_ny (s_src s))%nat ->
  nd_nx (s_src s') = nd_nx (s_src s) /\ nd_ny (s_src s') = nd_ny (s_src s) /\
  (on_line m (nd_nx (s_src s)) (nd_ny (s_src s)) i j -> Im (nd_at (s_src s') i j) = 0%R) /\
  (~ on_line m (nd_nx (s_src s)) (nd_ny (s_src s)) i j -> nd_at (s_src s') i j = nd_at (s_src s) i j).
Proof.
  intros e m s s' H i j Hi Hj. unfold setup_src in H.
  destruct (compute_normalization e m s) as [W|]; [|discriminate]. cbv zeta in H.
  change (s_src (upd_W_in W s)) with (s_src s) in H.
  destruct (insert_mode e m (upd_W_in W s) (s_src s)) as [d|] eqn:EI; [|discriminate]. injection H as <-. cbn [upd_src s_src].
  unfold insert_mode in EI. destruct (line_inds _ _ _) as [[[[i0 i1] j0] j1]|] eqn:EL; [|discriminate]. cbv zeta in EI.
  destruct (Nat.eqb _ 0); [discriminate|]. destruct (e_eigs _ _ _ _ _) as [v|]; [|discriminate].
  destruct (assign_at _ _ _ _ _ _ _ i j EI Hj) as (A1 & A2 & A3 & A4).
  rewrite (line_inds_on _ _ _ i j _ _ _ _ EL). split; [exact A1|]. split; [exact A2|]. split; [|exact A4].
  intro Q. rewrite (A3 Q). destruct (String.eqb _ _); unfold nd_at; cbn [nd_buf]; unfold mode_profile; reflexivity.
Qed.
(** Nothing but the source and the input power changes. *)
Theorem C55_nothing_else_changes :
  forall e m s s' r, setup_src e m s = (s', r) ->
  s' = s \/ exists W, s' = upd_src (s_src s') (upd_W_in W s).
Proof.
  intros e m s s' r H. unfold setup_src in H. destruct (compute_normalization e m s) as [W|]; [|injection H as <- _; auto].
  cbv zeta in H. right. exists W. destruct (insert_mode _ _ _ _); injection H as <- _; reflexivity.
Qed.

Lemma np_sign_cases r : (r < 0 /\ np_sign r = -1 \/ r = 0 /\ np_sign r = 0 \/ 0 < r /\ np_sign r = 1)%R.
Proof. unfold np_sign. destruct (Rlt_dec r 0), (Rlt_dec 0 r); try lra. Qed.
Lemma np_sign_mult t r : np_sign (t * r) = (np_sign t * np_sign r)%R.
Proof.
  destruct (np_sign_cases t) as [[? ->]|[[-> ->]|[? ->]]], (np_sign_cases r) as [[? ->]|[[-> ->]|[? ->]]];
    match goal with |- np_sign ?x = _ => destruct (np_sign_cases x) as [[? ->]|[[? ->]|[? ->]]] end; try lra; try nra.
Qed.
Lemma Rabs_sign t : (Rabs t * np_sign t = t)%R.
Proof.
  destruct (np_sign_cases t) as [[? ->]|[[-> ->]|[? ->]]].
  - rewrite Rabs_left by assumption. ring.
  - ring.
  - rewrite Rabs_pos_eq by lra. ring.
Qed.
(** what a mode writes on pixel k of its line *)
Lemma mode_profile_scale t x v k : mode_profile (t * x) v k = (RtoC t * mode_profile x v k)%C.
Proof.
  unfold mode_profile. rewrite <- RtoC_mult. f_equal.
  replace (v k * RtoC (t * x))%C with (RtoC t * (v k * RtoC x))%C by (rewrite RtoC_mult; ring).
  set (z := (v k * RtoC x)%C). rewrite Cmod_mult, Cmod_R. autorewrite with reim. cbn [Re Im RtoC fst snd].
  replace (t * Re z - 0 * Im z)%R with (t * Re z)%R by ring. rewrite np_sign_mult.
  replace (Rabs t * Cmod z * (np_sign t * np_sign (Re z)))%R with ((Rabs t * np_sign t) * (Cmod z * np_sign (Re z)))%R by ring.
  rewrite Rabs_sign. reflexivity.
Qed.

(** The written values are proportional to the scale (of any sign). *)
Theorem C55_linear_in_scale :
  forall e m s (t : R) s1 s2, setup_src e m s = (s1, Ok tt) ->
  setup_src e (with_scale m (t * md_scale m)) s = (s2, Ok tt) ->
  forall i j, (i < nd_nx (s_src s))%nat -> (j < nd_ny (s_src s))%nat -> on_line m (nd_nx (s_src s)) (nd_ny (s_src s)) i j ->
  nd_at (s_src s2) i j = (RtoC t * nd_at (s_src s1) i j)%C.
Proof.
  intros e m s t s1 s2 H1 H2 i j Hi Hj HL. unfold setup_src in H1, H2.
  destruct (compute_normalization e m s) as [W1|]; [|discriminate].
  destruct (compute_normalization e (with_scale m (t * md_scale m)) s) as [W2|]; [|discriminate]. cbv zeta in H1, H2.
  change (s_src (upd_W_in W1 s)) with (s_src s) in H1. change (s_src (upd_W_in W2 s)) with (s_src s) in H2.
  destruct (insert_mode e m _ _) as [d1|] eqn:E1; [|discriminate]. injection H1 as <-.
  destruct (insert_mode e (with_scale m _) _ _) as [d2|] eqn:E2; [|discriminate]. injection H2 as <-. cbn [upd_src s_src].
  unfold insert_mode in E1, E2. cbn [with_scale md_normal md_center md_width md_order md_scale md_neff] in E2.
  destruct (line_inds _ _ _) as [[[[i0 i1] j0] j1]|] eqn:EL; [|discriminate]. cbv zeta in E1, E2.
  change (s_eps (upd_W_in W1 s)) with (s_eps s) in E1. change (s_eps (upd_W_in W2 s)) with (s_eps s) in E2.
  change (mode_matrix (upd_W_in W1 s)) with (mode_matrix s) in E1. change (mode_matrix (upd_W_in W2 s)) with (mode_matrix s) in E2.
  change (s_omega (upd_W_in W1 s)) with (s_omega s) in E1. change (s_omega (upd_W_in W2 s)) with (s_omega s) in E2.
  change (s_L0 (upd_W_in W1 s)) with (s_L0 s) in E1. change (s_L0 (upd_W_in W2 s)) with (s_L0 s) in E2.
  destruct (Nat.eqb _ 0); [discriminate|]. destruct (e_eigs _ _ _ _ _) as [v|]; [|discriminate].
  apply (line_inds_on _ _ _ i j _ _ _ _ EL) in HL.
  destruct (assign_at _ _ _ _ _ _ _ i j E1 Hj) as (_ & _ & A1 & _). destruct (assign_at _ _ _ _ _ _ _ i j E2 Hj) as (_ & _ & A2 & _).
  rewrite (A1 HL), (A2 HL). destruct (String.eqb _ _); unfold nd_at; cbn [nd_buf nd_ny nd_nx]; apply mode_profile_scale.
Qed.


(** what setup_src writes, pixel by pixel *)
Lemma setup_src_inv e m s s' : setup_src e m s = (s', Ok tt) ->
  exists i0 i1 j0 j1 v, let L := nd_slice (s_eps s) i0 i1 j0 j1 in
    line_inds (md_normal m) (md_center m) (md_width m) = Ok (i0, i1, j0, j1) /\ nd_size L <> O /\
    e_eigs e (nd_size L) (mode_matrix s L) (md_order m)
      ((s_omega s * sqrt (MU_0 * s_L0 s * (EPSILON_0 * s_L0 s)) * md_neff m) ^ 2)%R = Ok v /\
    nd_assign (s_src s) i0 i1 j0 j1
      (if String.eqb (md_normal m) "x" then mkNd 1 (nd_size L) (mode_profile (md_scale m) v)
       else mkNd (nd_size L) 1 (mode_profile (md_scale m) v)) = Ok (s_src s') /\
    exists W, compute_normalization e m s = Ok W /\ s' = upd_src (s_src s') (upd_W_in W s).
Proof.
  intro H. unfold setup_src in H.
  destruct (compute_normalization e m s) as [W|] eqn:EW; [|discriminate]. cbv zeta in H.
  change (s_src (upd_W_in W s)) with (s_src s) in H.
  destruct (insert_mode e m (upd_W_in W s) (s_src s)) as [d|] eqn:EI; [|discriminate]. injection H as <-. cbn [upd_src s_src].
  unfold insert_mode in EI. destruct (line_inds _ _ _) as [[[[i0 i1] j0] j1]|] eqn:EL; [|discriminate]. cbv zeta in EI.
  change (s_eps (upd_W_in W s)) with (s_eps s) in EI.
  destruct (Nat.eqb_spec (nd_size (nd_slice (s_eps s) i0 i1 j0 j1)) 0) as [|HZ]; [discriminate|].
  change (mode_matrix (upd_W_in W s)) with (mode_matrix s) in EI.
  change (s_omega (upd_W_in W s)) with (s_omega s) in EI. change (s_L0 (upd_W_in W s)) with (s_L0 s) in EI.
  destruct (e_eigs _ _ _ _ _) as [v|] eqn:EE; [|discriminate].
  exists i0, i1, j0, j1, v. split; [reflexivity|]. split; [exact HZ|]. split; [exact EE|]. split; [exact EI|]. exists W. auto.
Qed.

(** Setting up the same mode again (same eigenvector) changes nothing in the source. *)
Theorem C55_set_up_again :
  forall e m s s1 s2, setup_src e m s = (s1, Ok tt) -> setup_src e m s1 = (s2, Ok tt) ->
  forall i j, (i < nd_nx (s_src s))%nat -> (j < nd_ny (s_src s))%nat -> nd_at (s_src s2) i j = nd_at (s_src s1) i j.
Proof.
  intros e m s s1 s2 H1 H2 i j Hi Hj.
  apply setup_src_inv in H1 as (i0 & i1 & j0 & j1 & v & EL & HZ & EE & EA & W & _ & ES). cbv zeta in *.
  apply setup_src_inv in H2 as (i0' & i1' & j0' & j1' & v' & EL' & HZ' & EE' & EA' & W' & _ & ES'). cbv zeta in *.
  rewrite EL in EL'. injection EL' as <- <- <- <-.
  assert (Q1: s_eps s1 = s_eps s) by (rewrite ES; reflexivity). assert (Q2: mode_matrix s1 = mode_matrix s) by (rewrite ES; reflexivity).
  assert (Q3: s_omega s1 = s_omega s) by (rewrite ES; reflexivity). assert (Q4: s_L0 s1 = s_L0 s) by (rewrite ES; reflexivity).
  rewrite Q1, Q2, Q3, Q4, EE in EE'. injection EE' as <-. rewrite Q1 in EA'.
  destruct (assign_at _ _ _ _ _ _ _ i j EA Hj) as (D1 & D2 & A1 & A2).
  assert (Hj': (j < nd_ny (s_src s1))%nat) by (rewrite D2; exact Hj).
  destruct (assign_at _ _ _ _ _ _ _ i j EA' Hj') as (_ & _ & B1 & B2). rewrite D1, D2 in B1, B2.
  assert (DEC: forall N a b k, {in_slice N a b k} + {~ in_slice N a b k}).
  { intros N a b k. destruct (le_lt_dec (slice_bound N a) k), (lt_dec k (slice_bound N b)); [left|right|right|right]; rewrite in_slice_bounds; lia. }
  destruct (DEC (nd_nx (s_src s)) i0 i1 i) as [I|I], (DEC (nd_ny (s_src s)) j0 j1 j) as [J|J].
  - rewrite (A1 (conj I J)), (B1 (conj I J)). reflexivity.
  - apply B2. tauto.
  - apply B2. tauto.
  - apply B2. tauto.
Qed.

(** The eigenvector is determined only up to a factor of modulus one.  The property for
    two environments that return unit eigenvectors of the same eigenvalues: *)
Definition unit_eigenvector (N : nat) (A : mat) (lam : C) (v : vec) : Prop :=
  (forall k, (k < N)%nat -> mv N A v k = (lam * v k)%C) /\ rsum N (fun k => Cmod (v k) ^ 2)%R = 1%R.
Definition eigs_correct (e : env) (lam : nat -> mat -> nat -> R -> C) : Prop :=
  forall N A o r v, e_eigs e N A o r = Ok v -> unit_eigenvector N A (lam N A o r) v.
Definition C55_property_eigenvector : Prop :=
  forall e1 e2 lam m s s1 s2, reachable e1 s -> reachable e2 s -> eigs_correct e1 lam -> eigs_correct e2 lam ->
  setup_src e1 m s = (s1, Ok tt) -> setup_src e2 m s = (s2, Ok tt) ->
  forall i j, (i < nd_nx (s_src s))%nat -> (j < nd_ny (s_src s))%nat -> nd_at (s_src s2) i j = nd_at (s_src s1) i j.

(** For eigenvectors that differ by such a factor the moduli of the source agree wherever
    the real parts of both do not vanish. *)
Theorem C55_modulus_independent_of_phase_partial :
  forall (m : mode) (v v' : vec) (c : C) k, Cmod c = 1%R -> v' k = (c * v k)%C ->
  Re (v k) <> 0%R -> Re (v' k) <> 0%R ->
  Cmod (mode_profile (md_scale m) v' k) = Cmod (mode_profile (md_scale m) v k) /\
  Cmod (mode_profile (md_scale m) v k) = (Rabs (md_scale m) * Cmod (v k))%R.
Proof.
  intros m v v' c k Hc Hv H1 H2.
  assert (G: forall u : vec, Re (u k) <> 0%R -> Cmod (mode_profile (md_scale m) u k) = (Rabs (md_scale m) * Cmod (u k))%R).
  { intros u Hu. unfold mode_profile. rewrite Cmod_R, Rabs_mult, Cmod_mult, Cmod_R.
    rewrite (Rabs_pos_eq (_ * _)) by (apply Rmult_le_pos; [apply Cmod_ge_0|apply Rabs_pos]).
    autorewrite with reim. cbn [Re Im RtoC fst snd]. replace (Re (u k) * md_scale m - Im (u k) * 0)%R with (Re (u k) * md_scale m)%R by ring.
    rewrite np_sign_mult, Rabs_mult.
    assert (S1: Rabs (np_sign (Re (u k))) = 1%R).
    { destruct (np_sign_cases (Re (u k))) as [[? ->]|[[? ->]|[? ->]]]; [rewrite Rabs_left by lra; ring|contradiction|apply Rabs_R1]. }
    rewrite S1. destruct (np_sign_cases (md_scale m)) as [[Q ->]|[[-> ->]|[Q ->]]].
    - rewrite (Rabs_left (-1)) by lra. ring.
    - rewrite Rabs_R0. ring.
    - rewrite Rabs_R1. ring. }
  rewrite !G by assumption. split; [|reflexivity]. rewrite Hv, Cmod_mult, Hc. ring.
Qed.

(* ------------------------------------------------------------------ *)
(** ** Modes whose line is inside the domain (normal x) *)

(** mode with normal x whose line starts at row lo and has w pixels *)
Definition x_line (m : mode) (c0 lo w : nat) : Prop :=
  md_normal m = "x" /\ fst (md_center m) = Z.of_nat c0 /\ md_width m = Z.of_nat w /\
  snd (md_center m) = (Z.of_nat lo + (Z.of_nat w + 1) / 2)%Z.
Definition square_src (s : sim) : Prop :=
  nd_nx (s_eps s) = s_Nx s /\ nd_ny (s_eps s) = s_Ny s /\ nd_nx (s_src s) = s_Nx s /\ nd_ny (s_src s) = s_Ny s.
Definition line_slice (s : sim) (c0 lo w : nat) : nd R :=
  nd_slice (s_eps s) (Z.of_nat c0) (Z.of_nat c0 + 1) (Z.of_nat lo) (Z.of_nat (lo + w)).
Definition beta2 (m : mode) (s : sim) : R := ((s_omega s * sqrt (MU_0 * s_L0 s * (EPSILON_0 * s_L0 s)) * md_neff m) ^ 2)%R.

Lemma x_line_inds m c0 lo w : x_line m c0 lo w ->
  line_inds (md_normal m) (md_center m) (md_width m) = Ok (Z.of_nat c0, (Z.of_nat c0 + 1)%Z, Z.of_nat lo, Z.of_nat (lo + w)).
Proof.
  intros (E1 & E2 & E3 & E4). unfold line_inds. rewrite E1, E2, E3, E4. change (String.eqb "x" "x") with true. cbn iota.
  assert (A1: Z.quot (2 * (Z.of_nat lo + (Z.of_nat w + 1) / 2) - Z.of_nat w) 2 = Z.of_nat lo).
  { rewrite Z.quot_div_nonneg by (Z.to_euclidean_division_equations; lia). Z.to_euclidean_division_equations; lia. }
  assert (A2: Z.quot (2 * (Z.of_nat lo + (Z.of_nat w + 1) / 2) + Z.of_nat w) 2 = Z.of_nat (lo + w)).
  { rewrite Z.quot_div_nonneg by (Z.to_euclidean_division_equations; lia). rewrite Nat2Z.inj_add. Z.to_euclidean_division_equations; lia. }
  rewrite A1, A2. reflexivity.
Qed.
Lemma line_slice_size s c0 lo w : square_src s -> (c0 < s_Nx s)%nat -> (lo + w <= s_Ny s)%nat ->
  nd_nx (line_slice s c0 lo w) = 1%nat /\ nd_ny (line_slice s c0 lo w) = w /\ nd_size (line_slice s c0 lo w) = w.
Proof.
  intros (E1 & E2 & _) H1 H2. unfold line_slice, nd_size. cbn [nd_slice nd_nx nd_ny]. rewrite E1, E2.
  rewrite !slice_bound_in by lia.
  replace (Z.to_nat (Z.of_nat c0 + 1) - Z.to_nat (Z.of_nat c0))%nat with 1%nat by lia.
  replace (Z.to_nat (Z.of_nat (lo + w)) - Z.to_nat (Z.of_nat lo))%nat with w by lia. lia.
Qed.
Lemma insert_x m c0 lo w e s dest v :
  x_line m c0 lo w -> square_src s -> nd_nx dest = s_Nx s -> nd_ny dest = s_Ny s ->
  (c0 < s_Nx s)%nat -> (lo + w <= s_Ny s)%nat -> (0 < w)%nat ->
  e_eigs e w (mode_matrix s (line_slice s c0 lo w)) (md_order m) (beta2 m s) = Ok v ->
  exists d, insert_mode e m s dest = Ok d /\ nd_nx d = s_Nx s /\ nd_ny d = s_Ny s /\
    forall i j, (i < s_Nx s)%nat -> (j < s_Ny s)%nat ->
      nd_at d i j = if (Nat.eqb i c0 && Nat.leb lo j && Nat.ltb j (lo + w))%bool
                    then mode_profile (md_scale m) v (j - lo) else nd_at dest i j.
Proof.
  intros HL HS D1 D2 H1 H2 Hw HE. assert (HI := x_line_inds m c0 lo w HL).
  destruct (line_slice_size s c0 lo w HS H1 H2) as (N1 & N2 & N3).
  unfold insert_mode. rewrite HI. cbv zeta. fold (line_slice s c0 lo w). rewrite N3.
  destruct (Nat.eqb_spec w 0); [lia|]. fold (beta2 m s). rewrite HE.
  destruct HL as (EN & _). rewrite EN. change (String.eqb "x" "x") with true. cbn iota.
  set (vv := mkNd 1 w (mode_profile (md_scale m) v)).
  assert (OK: exists d, nd_assign dest (Z.of_nat c0) (Z.of_nat c0 + 1) (Z.of_nat lo) (Z.of_nat (lo + w)) vv = Ok d).
  { unfold nd_assign. rewrite D1, D2. rewrite !slice_bound_in by lia. cbn [vv nd_nx nd_ny].
    replace (Z.to_nat (Z.of_nat (lo + w)) - Z.to_nat (Z.of_nat lo))%nat with w by lia. rewrite !Nat.eqb_refl, orb_true_r. cbn [andb orb]. eexists; reflexivity. }
  destruct OK as [d Hd]. exists d. split; [exact Hd|].
  split; [|split].
  - unfold nd_assign in Hd. destruct (_ && _)%bool; [|discriminate]. injection Hd as <-. exact D1.
  - unfold nd_assign in Hd. destruct (_ && _)%bool; [|discriminate]. injection Hd as <-. exact D2.
  - intros i j Hi Hj. destruct (assign_at _ _ _ _ _ _ _ i j Hd ltac:(lia)) as (_ & _ & A1 & A2).
    rewrite !in_slice_bounds, D1, D2, !slice_bound_in in A1, A2 by lia. cbn [vv nd_nx nd_ny] in A1.
    destruct (Nat.eqb_spec i c0), (Nat.leb_spec lo j), (Nat.ltb_spec j (lo + w)); cbn [andb]; try (apply A2; lia).
    rewrite A1 by lia. unfold nd_at, vv; cbn [nd_buf nd_ny]. unfold bidx at 1. cbn [Nat.eqb Nat.mul Nat.add].
    rewrite Nat2Z.id. unfold bidx. destruct (Nat.eqb_spec w 1); [f_equal; lia|reflexivity].
Qed.

(** the simulation in which the input power is measured *)
Definition norm_sim (m : mode) (s : sim) (c0 : nat) : sim :=
  set_eps (mkNd (s_Nx s) (s_Ny s) (fun k =>
    if Rlt_dec 1 (nd_at (s_eps s) c0 (k mod s_Ny s))
    then rmax (nd_size (s_eps s)) (fun k => Rabs (nd_buf (s_eps s) k)) else 1%R)) s.
Lemma norm_square m s c0 : square_src s -> square_src (norm_sim m s c0).
Proof. intros (E1 & E2 & E3 & E4). unfold square_src, norm_sim. cbn. rewrite E3, E4. auto. Qed.

(** compute_normalization for such a mode, apart from the probe *)
Lemma norm_x m c0 lo w e s v :
  x_line m c0 lo w -> square_src s -> (c0 < s_Nx s)%nat -> (lo + w <= s_Ny s)%nat -> (0 < w)%nat ->
  let s1 := norm_sim m s c0 in
  e_eigs e w (mode_matrix s1 (line_slice s1 c0 lo w)) (md_order m) (beta2 m s) = Ok v ->
  exists src a b z,
    insert_mode e m s1 (s_src s) = Ok src /\ nd_nx src = s_Nx s /\ nd_ny src = s_Ny s /\
    (forall i j, (i < s_Nx s)%nat -> (j < s_Ny s)%nat ->
      nd_at src i j = if (Nat.eqb i c0 && Nat.leb lo j && Nat.ltb j (lo + w))%bool
                      then mode_profile (md_scale m) v (j - lo) else nd_at (s_src s) i j) /\
    let s2 := upd_fields (store3 (s_pol s) (s_fields s1) (a, b, z)) (upd_src src s1) in
    solve_fields e false false (upd_src src s1) = (s2, Ok (a, b, z)) /\
    compute_normalization e m s =
      flux_probe "x" (Z.of_nat (s_Nx s) - Z.of_nat c0, snd (md_center m))%Z (Z.of_nat w) false s2.
Proof.
  intros HL HS H1 H2 Hw s1 HE. assert (HS1 := norm_square m s c0 HS). fold s1 in HS1.
  assert (G1: s_Nx s1 = s_Nx s) by reflexivity. assert (G2: s_Ny s1 = s_Ny s) by reflexivity.
  destruct HS as (E1 & E2 & E3 & E4).
  destruct (insert_x m c0 lo w e s1 (s_src s) v HL HS1 ltac:(rewrite G1; exact E3) ltac:(rewrite G2; exact E4) ltac:(rewrite G1; exact H1) ltac:(rewrite G2; exact H2) Hw HE) as (src & HI & D1 & D2 & D3).
  destruct (solve_fields_lin e false (upd_src src s1)) as (X & _ & HX).
  { unfold nd_size, s_M. cbn [upd_src s_src s_Nx s_Ny]. rewrite D1, D2. reflexivity. }
  cbv zeta in HX. set (D := derived_fields _ _ _ _) in HX.
  exists src, (fst D), (snd D), X. split; [exact HI|]. split; [exact D1|]. split; [exact D2|]. split; [exact D3|].
  cbv zeta. split; [exact HX|].
  destruct HL as (EN & EC & EW & _).
  unfold compute_normalization, norm_structure. rewrite EN. change (String.eqb "x" "x") with true. cbn iota. rewrite EC. unfold py_index.
  rewrite E1, E2.
  rewrite (proj2 (Z.leb_le _ _)), (proj2 (Z.ltb_lt _ _)) by lia. cbn [andb]. rewrite (proj2 (Z.ltb_ge _ _)) by lia. rewrite Nat2Z.id.
  fold (norm_sim m s c0). fold s1. change (s_src s1) with (s_src s). rewrite HI, HX. cbn [fst snd]. rewrite EW. reflexivity.
Qed.

(* ------------------------------------------------------------------ *)
(** ** Two correct eigensolvers with different sources *)

(** on a line with one permittivity a constant is an eigenvector *)
Lemma uniform_line_eigen s eps (c : R) (v : vec) :
  s_pol s = PolEz -> (s_dl s <> 0)%R -> (2 <= nd_size eps)%nat ->
  (forall k, (k < nd_size eps)%nat -> nd_buf eps k = c) -> (forall k, v k = v O) ->
  forall k, (k < nd_size eps)%nat ->
  mv (nd_size eps) (mode_matrix s eps) v k = (RtoC (s_omega s ^ 2 * (MU_0 * s_L0 s) * (EPSILON_0 * s_L0 s * c)) * v k)%C.
Proof.
  intros HP Hd H2 Hc Hv k Hk. set (N := nd_size eps) in *. unfold mode_matrix. cbv zeta. fold N. rewrite HP.
  rewrite mv_mplus, mv_mscal, mv_mm. unfold spdiags. rewrite mv_diag by exact Hk. rewrite Hc by exact Hk.
  assert (Z: forall i, (i < N)%nat -> mv N (createDws AxX Bwd (s_dl s) 1 N 1) v i = RtoC 0).
  { intros i Hi. assert (Q := Dxb_stencil (s_dl s) 1 N 1 Hd v i 0 H2 Hi Nat.lt_0_1). unfold pix in Q.
    rewrite !Nat.mul_1_r, Nat.add_0_r in Q. rewrite Q. unfold diff_xb. rewrite (Hv (pix 1 i 0)), (Hv (pix 1 _ 0)). unfold Cdiv, Cminus. rewrite Cplus_opp_r. apply Cmult_0_l. }
  unfold mv at 1. rewrite csum_0. 2:{ intros j Hj. rewrite Z by exact Hj. apply Cmult_0_r. }
  rewrite <- !RtoC_mult || idtac. rewrite !RtoC_mult. ring.
Qed.

Definition sign_env (v : vec) : env := mkEnv false (fun _ n A b => exact_solver n A b) (fun _ _ _ _ => 0%R)
  (fun N A _ _ => if excluded_middle_informative (unit_eigenvector N A (RtoC 32) v) then Ok v else Raise ValueError) (fun _ E => (E, E)).
Lemma sign_env_correct v : eigs_correct (sign_env v) (fun _ _ _ _ => RtoC 32).
Proof. intros N A o r u H. cbn [sign_env e_eigs] in H. destruct (excluded_middle_informative _) as [Q|]; [injection H as <-; exact Q|discriminate]. Qed.

Definition two_eps : rvec := fun _ => 2%R.
Definition mid_mode : mode := mkMode 1 "x" (2, 3)%Z 3 1 1.
Lemma mid_mode_line : x_line mid_mode 2 1 3.
Proof. unfold x_line, mid_mode; cbn. auto. Qed.

Lemma fam_basic Nx Ny eps s : fam_sim "Ez" Nx Ny 0 0 eps = Ok s ->
  s_pol s = PolEz /\ s_dl s = 1%R /\ s_L0 s = 1%R /\ s_omega s = ex_omega /\ s_Nx s = Nx /\ s_Ny s = Ny /\ s_eps s = mkNd Nx Ny eps /\
  s_src s = mkNd Nx Ny (fun _ => RtoC 0) /\ square_src s.
Proof.
  intro H. unfold fam_sim, Simulation in H. destruct (check_inputs _ _ _ _); [|discriminate]. injection H as <-.
  unfold square_src. cbn. repeat split; reflexivity.
Qed.
Lemma third : (Rsqr (/ sqrt 3) = / 3)%R.
Proof. unfold Rsqr. rewrite <- Rinv_mult. rewrite sqrt_sqrt by lra. reflexivity. Qed.

Lemma uniform_eig (x : R) c0 Nx t m : (x ^ 2 = / 3)%R -> (5 <= Nx)%nat -> (c0 < Nx)%nat ->
  s_pol t = PolEz -> s_dl t = 1%R -> s_L0 t = 1%R -> s_omega t = ex_omega -> square_src t -> s_Nx t = Nx -> s_Ny t = 6%nat ->
  (forall i j, (i < Nx)%nat -> (j < 6)%nat -> nd_at (s_eps t) i j = 2%R) ->
  e_eigs (sign_env (fun _ => RtoC x)) 3 (mode_matrix t (line_slice t c0 1 3)) 1 (beta2 m t) = Ok (fun _ => RtoC x).
Proof.
  intros Hx HN Hc0. set (e := sign_env (fun _ => RtoC x)).
  intros Tp Td TL To TQ Tx Ty TE. destruct (line_slice_size t c0 1 3 TQ ltac:(lia) ltac:(lia)) as (L1 & L2 & L3).
    cbn [e sign_env e_eigs]. destruct (excluded_middle_informative _) as [|Q]; [reflexivity|]. exfalso; apply Q. clear Q. split.
    - intros k Hk. assert (Q := uniform_line_eigen t (line_slice t c0 1 3) 2 (fun _ => RtoC x) Tp). rewrite L3 in Q. rewrite Q.
      + rewrite To, TL. f_equal. f_equal. generalize ex_omega_sq. nra.
      + rewrite Td. lra.
      + lia.
      + intros q Hq. destruct TQ as (T1 & T2 & _).
        unfold line_slice. cbn [nd_slice nd_buf]. rewrite T1, T2, Tx, Ty. rewrite !slice_bound_in by lia.
        replace (Z.to_nat (Z.of_nat (1 + 3)) - Z.to_nat (Z.of_nat 1))%nat with 3%nat by lia.
        rewrite Nat.div_small, Nat.mod_small by lia. apply TE; lia.
      + reflexivity.
      + exact Hk.
    - cbn [rsum]. rewrite Cmod_R. rewrite <- Rsqr_pow2, <- Rsqr_abs, Rsqr_pow2, Hx. lra.
Qed.
Lemma uniform_norm_eps m s c0 Nx : (0 < Nx)%nat -> s_eps s = mkNd Nx 6 two_eps -> s_Nx s = Nx -> s_Ny s = 6%nat ->
  forall i j, (i < Nx)%nat -> (j < 6)%nat -> nd_at (s_eps (norm_sim m s c0)) i j = 2%R.
Proof.
  intros HN Ee Ex Ey i j Hi Hj. unfold norm_sim. cbn [set_eps s_eps]. unfold nd_at at 1. cbn [nd_buf nd_ny]. rewrite Ee.
  unfold nd_at, two_eps. cbn [nd_buf nd_ny]. destruct (Rlt_dec 1 2) as [|Q]; [|lra].
  destruct (rmax_spec (nd_size (mkNd Nx 6 (fun _ => 2%R))) (fun _ => Rabs 2)) as ((q & _ & ->) & _); [unfold nd_size; cbn [nd_nx nd_ny]; lia|]. apply Rabs_pos_eq; lra.
Qed.

(** the mode can be set up with every source in the array *)
Lemma uniform_mode_set_up (x : R) Nx s0 sr : (x ^ 2 = / 3)%R -> fam_sim "Ez" Nx 6 0 0 two_eps = Ok s0 -> (5 <= Nx)%nat ->
  nd_nx sr = Nx -> nd_ny sr = 6%nat ->
  let e := sign_env (fun _ => RtoC x) in
  let s := upd_src sr s0 in
  let t := norm_sim mid_mode s0 2 in
  exists s1 src a b z W, setup_src e mid_mode s = (s1, Ok tt) /\
    (forall j, (1 <= j < 4)%nat -> nd_at (s_src s1) 2 j = mode_profile 1 (fun _ => RtoC x) (j - 1)) /\
    nd_nx src = Nx /\ nd_ny src = 6%nat /\
    (forall i j, (i < Nx)%nat -> (j < 6)%nat ->
       nd_at src i j = if (Nat.eqb i 2 && Nat.leb 1 j && Nat.ltb j 4)%bool then mode_profile 1 (fun _ => RtoC x) (j - 1) else nd_at sr i j) /\
    solve_fields e false false (upd_src src t) = (upd_fields (store3 PolEz (s_fields t) (a, b, z)) (upd_src src t), Ok (a, b, z)) /\
    s_W_in s1 = Val W /\ W = (rsum 3 (fun k => density_x PolEz 6 z b (Nx - 2) (1 + k)))%R.
Proof.
  intros Hx HS HN N1 N2 e s t. destruct (fam_basic _ _ _ _ HS) as (Hp & Hd & HL & Ho & Ex & Ey & Ee & Es & HQ0).
  assert (HQ: square_src s). { unfold square_src in *. subst s. cbn [upd_src s_eps s_src s_Nx s_Ny]. rewrite N1, N2, Ex, Ey. intuition congruence. }
  assert (E0: e_eigs e 3 (mode_matrix s (line_slice s 2 1 3)) 1 (beta2 mid_mode s) = Ok (fun _ => RtoC x)).
  { apply (uniform_eig x 2 Nx); try assumption; try lia. intros i j Hi Hj. subst s. cbn [upd_src s_eps]. rewrite Ee. reflexivity. }
  assert (E1: e_eigs e 3 (mode_matrix (norm_sim mid_mode s 2) (line_slice (norm_sim mid_mode s 2) 2 1 3)) 1 (beta2 mid_mode s) = Ok (fun _ => RtoC x)).
  { change (beta2 mid_mode s) with (beta2 mid_mode (norm_sim mid_mode s 2)). apply (uniform_eig x 2 Nx); try assumption; try lia; [exact (norm_square mid_mode s 2 HQ)|].
    apply uniform_norm_eps; try assumption; lia. }
  assert (Xs: s_Nx s = Nx) by exact Ex. assert (Ys: s_Ny s = 6%nat) by exact Ey.
  destruct (norm_x mid_mode 2 1 3 e s (fun _ => RtoC x) mid_mode_line HQ ltac:(lia) ltac:(lia) ltac:(lia) E1) as (src & a & b & z & HI & D1 & D2 & D3 & H4). cbv zeta in H4. destruct H4 as [HF HW].
  change (upd_src src (norm_sim mid_mode s 2)) with (upd_src src t) in HF, HW. change (s_fields (norm_sim mid_mode s 2)) with (s_fields t) in HF, HW.
  assert (Ps: s_pol s = PolEz) by exact Hp. rewrite Ps in HF, HW.
  set (s2 := upd_fields _ _) in HW, HF.
  rewrite (flux_x_inside s2 false z b _ _ _ 1 4) in HW.
  2:{ subst s2 t. cbn [upd_fields s_fields s_pol upd_src norm_sim set_eps]. rewrite Hp. reflexivity. }
  2:{ subst s2 t. cbn [upd_fields s_fields s_pol upd_src norm_sim set_eps]. rewrite Hp. reflexivity. }
  2,3: reflexivity.
  2: rewrite Xs; lia.
  2:{ subst s2 t. cbn [upd_fields s_Nx upd_src norm_sim set_eps]. cbn [nd_nx]. rewrite Xs, Ex. lia. }
  2: lia.
  2:{ subst s2 t. cbn [upd_fields s_Ny upd_src norm_sim set_eps]. cbn [nd_ny]. rewrite Ey. lia. }
  assert (T1: s_dl s2 = 1%R) by exact Hd. assert (T2: s_pol s2 = PolEz) by exact Hp. assert (T3: s_Ny s2 = 6%nat) by exact Ey.
  rewrite T1, T2, T3, Rmult_1_l, Xs in HW. replace (Z.to_nat (Z.of_nat Nx - Z.of_nat 2)) with (Nx - 2)%nat in HW by lia.
  change (4 - 1)%nat with 3%nat in HW. rewrite (rsum_ext 3 _ (fun k => density_x PolEz 6 z b (Nx - 2) (1 + k))) in HW by (intros; apply line_power_x).
  unfold setup_src. rewrite HW. cbv zeta. set (W := rsum 3 _) in *. change (s_src (upd_W_in W s)) with (s_src s).
  assert (HQ': square_src (upd_W_in W s)) by exact HQ.
  destruct (insert_x mid_mode 2 1 3 e (upd_W_in W s) (s_src s) (fun _ => RtoC x) mid_mode_line HQ') as (d & -> & M1 & M2 & HD).
  { change (nd_nx sr = s_Nx s). congruence. }
  { change (nd_ny sr = s_Ny s). congruence. }
  { change (2 < s_Nx s)%nat. lia. }
  { change (1 + 3 <= s_Ny s)%nat. lia. }
  { lia. }
  { exact E0. }
  exists (upd_src d (upd_W_in W s)), src, a, b, z, W. split; [reflexivity|].
  split; [|split; [congruence|split; [congruence|split; [|split; [exact HF|split; reflexivity]]]]].
  - intros j Hj. cbn [upd_src s_src].
    rewrite HD; [|change (2 < s_Nx s)%nat; lia|change (j < s_Ny s)%nat; lia]. rewrite Nat.eqb_refl.
    destruct (Nat.leb_spec 1 j), (Nat.ltb_spec j (1 + 3)); try lia. reflexivity.
  - intros i j Hi Hj. apply D3; lia.
Qed.

Theorem C55_eigenvector_sign_refuted : ~ C55_property_eigenvector.
Proof.
  intro H. destruct (fam_sim_ok "Ez" 6 6 0 0 two_eps (or_introl eq_refl)) as [s HS].
  destruct (fam_basic _ _ _ _ HS) as (_ & _ & _ & _ & Ex & Ey & _ & Es & _).
  assert (H3: (/ sqrt 3 <> 0)%R) by (apply Rinv_neq_0_compat, Rgt_not_eq, sqrt_lt_R0; lra).
  assert (ES: upd_src (s_src s) s = s) by (destruct s; reflexivity).
  destruct (uniform_mode_set_up (/ sqrt 3) 6 s (s_src s) ltac:(rewrite <- third; unfold Rsqr; ring) HS ltac:(lia) ltac:(rewrite Es; reflexivity) ltac:(rewrite Es; reflexivity)) as (s1 & ? & ? & ? & ? & ? & R1 & V1 & _).
  destruct (uniform_mode_set_up (- / sqrt 3) 6 s (s_src s) ltac:(rewrite <- third; unfold Rsqr; ring) HS ltac:(lia) ltac:(rewrite Es; reflexivity) ltac:(rewrite Es; reflexivity)) as (s2 & ? & ? & ? & ? & ? & R2 & V2 & _).
  rewrite ES in R1, R2.
  assert (RE: forall e, reachable e s).
  { intro e. exists ex_omega, (mkNd 6 6 two_eps), 1%R, (Some [0; 0]%Z), "Ez", 1%R, s, []. cbn [nd_nx nd_ny]. repeat split; try lia; [lra|exact HS]. }
  assert (Q := H _ _ _ mid_mode s s1 s2 (RE _) (RE _) (sign_env_correct _) (sign_env_correct _) R1 R2 2%nat 2%nat
     ltac:(rewrite Es; cbn; lia) ltac:(rewrite Es; cbn; lia)).
  rewrite V1, V2 in Q by lia. apply (f_equal Re) in Q. unfold mode_profile in Q. cbn [Re RtoC fst] in Q.
  rewrite !Cmod_mult, !Cmod_R, Rabs_R1, Rabs_Ropp in Q. autorewrite with reim in Q. cbn [Re Im RtoC fst snd] in Q.
  replace (- / sqrt 3 * 1 - 0 * 0)%R with (- / sqrt 3)%R in Q by ring. replace (/ sqrt 3 * 1 - 0 * 0)%R with (/ sqrt 3)%R in Q by ring.
  assert (P: (0 < / sqrt 3)%R) by (apply Rinv_0_lt_compat, sqrt_lt_R0; lra).
  destruct (np_sign_cases (/ sqrt 3)) as [[? E]|[[? E]|[? E]]]; try lra. rewrite E in Q.
  destruct (np_sign_cases (- / sqrt 3)) as [[? E']|[[? E']|[? E']]]; try lra. rewrite E' in Q.
  rewrite Rabs_pos_eq in Q by lra. lra.
Qed.

(* ------------------------------------------------------------------ *)
(** ** C56 *)

(** the straight waveguide in which the power is measured has a nonsingular matrix *)
Definition straight_solvable (m : mode) (s : sim) : Prop :=
  forall eps c, norm_structure m (s_eps s) = Ok (eps, c) -> nonsingular (s_M (set_eps eps s)) (s_A (set_eps eps s)).
(** a is an array of the shape of the domain *)
Definition full_shape (s : sim) (a : nd C) : Prop := nd_nx a = s_Nx s /\ nd_ny a = s_Ny s.

(** the property as claimed *)
Definition C56_property : Prop :=
  forall e lam m s a b s1 s2,
  reachable e s -> solver_exact e -> eigs_correct e lam -> straight_solvable m s -> full_shape s a -> full_shape s b ->
  setup_src e m (upd_src a s) = (s1, Ok tt) -> setup_src e m (upd_src b s) = (s2, Ok tt) -> s_W_in s1 = s_W_in s2.

Lemma reachable_eps e s a : reachable e s -> reachable e (set_eps a s).
Proof.
  intros (omega & eps & dl & np & p & L0 & s0 & l & Hd & Hx & Hy & HS & ->).
  exists omega, eps, dl, np, p, L0, s0, (l ++ [SetEps a])%list. repeat split; try assumption.
  assert (G: forall l s, set_eps a (run_ops e l s) = run_ops e (l ++ [SetEps a])%list s).
  { clear. induction l as [|o l IH]; intro s; [reflexivity|]. cbn. apply IH. }
  apply G.
Qed.
Lemma norm_structure_shape m eps eps' c : norm_structure m eps = Ok (eps', c) -> nd_nx eps' = nd_nx eps /\ nd_ny eps' = nd_ny eps.
Proof.
  unfold norm_structure. destruct (String.eqb _ "x"); [|destruct (String.eqb _ "y"); [|discriminate]].
  - destruct (py_index _ _); [|discriminate]. intro H; injection H as <- <-. split; reflexivity.
  - destruct (py_index _ _); [|discriminate]. intro H; injection H as <- <-. split; reflexivity.
Qed.

Lemma insert_off_line e m t a b da db :
  nd_nx b = nd_nx a -> nd_ny b = nd_ny a ->
  (forall i j, (i < nd_nx a)%nat -> (j < nd_ny a)%nat -> ~ on_line m (nd_nx a) (nd_ny a) i j -> nd_at a i j = nd_at b i j) ->
  insert_mode e m t a = Ok da -> insert_mode e m t b = Ok db ->
  forall i j, (i < nd_nx a)%nat -> (j < nd_ny a)%nat -> nd_at da i j = nd_at db i j.
Proof.
  intros N1 N2 HAB H1 H2 i j Hi Hj. unfold insert_mode in H1, H2.
  destruct (line_inds _ _ _) as [[[[i0 i1] j0] j1]|] eqn:EL; [|discriminate]. cbv zeta in *.
  destruct (Nat.eqb _ 0); [discriminate|]. destruct (e_eigs _ _ _ _ _) as [v|]; [|discriminate].
  destruct (assign_at _ _ _ _ _ _ _ i j H1 Hj) as (_ & _ & P1 & P2).
  assert (Hj': (j < nd_ny b)%nat) by (rewrite N2; exact Hj).
  destruct (assign_at _ _ _ _ _ _ _ i j H2 Hj') as (_ & _ & Q1 & Q2). rewrite N1, N2 in Q1, Q2.
  assert (L := line_inds_on m (nd_nx a) (nd_ny a) i j _ _ _ _ EL).
  destruct (excluded_middle_informative (on_line m (nd_nx a) (nd_ny a) i j)) as [I|I].
  - rewrite P1, Q1 by (apply L; exact I). reflexivity.
  - rewrite P2, Q2 by (intro X; apply I, L, X). apply HAB; assumption.
Qed.
Lemma insert_shape e m t a da : insert_mode e m t a = Ok da -> nd_nx da = nd_nx a /\ nd_ny da = nd_ny a.
Proof.
  intro H. unfold insert_mode in H. destruct (line_inds _ _ _) as [[[[i0 i1] j0] j1]|] eqn:EL; [|discriminate]. cbv zeta in *.
  destruct (Nat.eqb _ 0); [discriminate|]. destruct (e_eigs _ _ _ _ _) as [v|]; [|discriminate].
  unfold nd_assign in H. destruct (_ && _)%bool; [|discriminate]. injection H as <-. split; reflexivity.
Qed.
Lemma nd_buf_at {T} (a : nd T) Nx Ny k : nd_ny a = Ny -> (k < Nx * Ny)%nat -> nd_buf a k = nd_at a (k / Ny) (k mod Ny).
Proof. intros <- Hk. unfold nd_at. f_equal. rewrite (Nat.div_mod k (nd_ny a)) at 1 by (intro Z; rewrite Z in Hk; lia). lia. Qed.

(** What is proved: W_in depends only on the source outside the line of the mode. *)
Theorem C56_only_sources_off_the_line_partial :
  forall e m s a b,
  reachable e s -> solver_exact e -> straight_solvable m s -> full_shape s a -> full_shape s b ->
  (forall i j, (i < s_Nx s)%nat -> (j < s_Ny s)%nat -> ~ on_line m (s_Nx s) (s_Ny s) i j -> nd_at a i j = nd_at b i j) ->
  forall s1 s2, setup_src e m (upd_src a s) = (s1, Ok tt) -> setup_src e m (upd_src b s) = (s2, Ok tt) ->
  s_W_in s1 = s_W_in s2.
Proof.
  intros e m s a b HR He HN [A1 A2] [B1 B2] HAB s1 s2 H1 H2.
  assert (HC := reachable_consistent e s HR).
  apply setup_src_inv in H1 as (_ & _ & _ & _ & _ & _ & _ & _ & _ & W1 & K1 & E1).
  apply setup_src_inv in H2 as (_ & _ & _ & _ & _ & _ & _ & _ & _ & W2 & K2 & E2).
  rewrite E1, E2. cbn [upd_src upd_W_in s_W_in]. f_equal. clear E1 E2.
  unfold compute_normalization in K1, K2. change (s_eps (upd_src a s)) with (s_eps s) in K1. change (s_eps (upd_src b s)) with (s_eps s) in K2.
  destruct (norm_structure m (s_eps s)) as [[eps c]|] eqn:EN; [|discriminate].
  assert (HN' := HN _ _ EN). destruct (norm_structure_shape _ _ _ _ EN) as [X1 X2].
  change (set_eps eps (upd_src a s)) with (upd_src a (set_eps eps s)) in K1.
  change (set_eps eps (upd_src b s)) with (upd_src b (set_eps eps s)) in K2.
  set (t := set_eps eps s) in *. cbv zeta in K1, K2. change (s_src (upd_src a t)) with a in K1. change (s_src (upd_src b t)) with b in K2.
  change (insert_mode e m (upd_src a t) a) with (insert_mode e m t a) in K1.
  change (insert_mode e m (upd_src b t) b) with (insert_mode e m t b) in K2.
  destruct (insert_mode e m t a) as [da|] eqn:IA; [|discriminate]. destruct (insert_mode e m t b) as [db|] eqn:IB; [|discriminate].
  change (upd_src da (upd_src a t)) with (upd_src da t) in K1. change (upd_src db (upd_src b t)) with (upd_src db t) in K2.
  destruct (solve_fields e false false (upd_src da t)) as [u1 [r1|]] eqn:S1; [|discriminate].
  destruct (solve_fields e false false (upd_src db t)) as [u2 [r2|]] eqn:S2; [|discriminate].
  assert (HT: s_Nx t = s_Nx s /\ s_Ny t = s_Ny s).
  { subst t. cbn [set_eps s_Nx s_Ny]. destruct HC as (C1 & C2 & _). rewrite X1, X2. auto. }
  destruct HT as [T1 T2].
  destruct (insert_shape _ _ _ _ _ IA) as [F1 F2]. destruct (insert_shape _ _ _ _ _ IB) as [G1 G2].
  assert (Q := C60_source_times_factor e t (RtoC 1) da db u1 u2 r1 r2 (md_normal m) c (md_width m) (reachable_eps e s eps HR) He HN').
  rewrite Q in K2; try assumption.
  - rewrite K1 in K2. apply (f_equal (fun r => match r with Ok P => P | Raise _ => 0%R end)) in K2; cbv beta iota in K2. rewrite <- K2, Cmod_1. ring.
  - intros k Hk. rewrite Cmult_1_l. unfold s_M in Hk.
    assert (Hy: (0 < s_Ny s)%nat) by (rewrite T1, T2 in Hk; lia).
    rewrite T1, T2 in Hk.
    rewrite (nd_buf_at db (s_Nx s) (s_Ny s)), (nd_buf_at da (s_Nx s) (s_Ny s)) by (assumption || congruence).
    symmetry. apply (insert_off_line e m t a b); try assumption; try congruence.
    + rewrite A1, A2. exact HAB.
    + rewrite A1. apply Nat.div_lt_upper_bound; lia.
    + rewrite A2. apply Nat.mod_upper_bound; lia.
Qed.


Lemma norm_W_in e m W s : compute_normalization e m (upd_W_in W s) = compute_normalization e m s.
Proof.
  unfold compute_normalization. change (s_eps (upd_W_in W s)) with (s_eps s).
  destruct (norm_structure m (s_eps s)) as [[eps c]|]; [|reflexivity].
  change (set_eps eps (upd_W_in W s)) with (upd_W_in W (set_eps eps s)). set (t := set_eps eps s). cbv zeta.
  change (s_src (upd_W_in W t)) with (s_src t). change (insert_mode e m (upd_W_in W t) (s_src t)) with (insert_mode e m t (s_src t)).
  destruct (insert_mode e m t (s_src t)) as [d|]; [|reflexivity]. change (upd_src d (upd_W_in W t)) with (upd_W_in W (upd_src d t)).
  set (u := upd_src d t). unfold solve_fields. change (s_src (upd_W_in W u)) with (s_src u). change (s_M (upd_W_in W u)) with (s_M u).
  change (s_A (upd_W_in W u)) with (s_A u). change (rhs (upd_W_in W u)) with (rhs u).
  destruct (Nat.eqb _ _); [|reflexivity]. destruct (solver_direct _ _ _ _ _) as [X|]; [|reflexivity]. cbn [negb].
  change (derived_fields (upd_W_in W u) (s_epsC (upd_W_in W u)) false X) with (derived_fields u (s_epsC u) false X).
  destruct (derived_fields u (s_epsC u) false X) as [p q]. reflexivity.
Qed.

(** Setting the mode up a second time gives the same W_in. *)
Corollary C56_set_up_again_partial :
  forall e m s s1 s2,
  reachable e s -> solver_exact e -> straight_solvable m s -> full_shape s (s_src s) ->
  setup_src e m s = (s1, Ok tt) -> setup_src e m s1 = (s2, Ok tt) -> s_W_in s2 = s_W_in s1.
Proof.
  intros e m s s1 s2 HR He HN HF H1 H2.
  destruct HF as [F1 F2]. assert (H1' := H1). apply setup_src_inv in H1' as (i0 & i1 & j0 & j1 & v & EL & _ & _ & EA & W & _ & ES).
  assert (SH: nd_nx (s_src s1) = s_Nx s /\ nd_ny (s_src s1) = s_Ny s).
  { unfold nd_assign in EA. destruct (_ && _)%bool; [|discriminate]. injection EA as <-. cbn [nd_nx nd_ny]. auto. }
  assert (E0: upd_src (s_src s) s = s) by (destruct s; reflexivity). rewrite <- E0 in H1.
  destruct (setup_src e m (upd_src (s_src s1) s)) as [s3 r3] eqn:H3.
  assert (K: r3 = Ok tt /\ s_W_in s3 = s_W_in s2).
  { rewrite ES in H2. unfold setup_src in H2, H3.
    change (upd_src (s_src s1) (upd_W_in W s)) with (upd_W_in W (upd_src (s_src s1) s)) in H2. rewrite norm_W_in in H2.
    destruct (compute_normalization e m (upd_src (s_src s1) s)) as [V|]; [|discriminate]. cbv zeta in H2, H3.
    change (s_src (upd_W_in V (upd_W_in W (upd_src (s_src s1) s)))) with (s_src s1) in H2.
    change (s_src (upd_W_in V (upd_src (s_src s1) s))) with (s_src s1) in H3.
    change (insert_mode e m (upd_W_in V (upd_W_in W (upd_src (s_src s1) s))) (s_src s1)) with (insert_mode e m (upd_W_in V (upd_src (s_src s1) s)) (s_src s1)) in H2.
    destruct (insert_mode _ _ _ _) as [d|]; [|discriminate]. injection H2 as <-. injection H3 as <- <-. split; reflexivity. }
  destruct K as [-> K]. rewrite <- K.
  refine (eq_sym (C56_only_sources_off_the_line_partial e m s (s_src s) (s_src s1) HR He HN (conj F1 F2) SH _ s1 s3 H1 H3)).
  intros i j Hi Hj HO.
  rewrite <- F2 in Hj. destruct (assign_at _ _ _ _ _ _ _ i j EA Hj) as (_ & _ & _ & P2). symmetry. apply P2. intro Q. apply HO.
  rewrite <- F1, <- F2. apply (line_inds_on m _ _ i j _ _ _ _ EL). exact Q.
Qed.

Lemma sign_env_exact v : solver_exact (sign_env v).
Proof. intros sv n A b HA. apply exact_solver_correct; assumption. Qed.
Lemma uniform_straight Nx s : fam_sim "Ez" Nx 6 0 0 two_eps = Ok s -> (3 <= Nx)%nat ->
  let t := norm_sim mid_mode s 2 in plain_Ez t 1 /\ nonsingular (s_M t) (s_A t) /\ s_Nx t = Nx /\ s_Ny t = 6%nat.
Proof.
  intros HS HN t. destruct (fam_plain _ _ _ _ HS ltac:(lia) ltac:(lia) ltac:(intros; unfold two_eps; lra)) as (PL & HR & _ & E1 & E2 & _ & E4 & E5).
  destruct (fam_basic _ _ _ _ HS) as (Hp & Hd & HL & Ho & Ex & Ey & Ee & Es & HQ0).
  assert (T1: s_Nx t = Nx) by exact E1. assert (T2: s_Ny t = 6%nat) by exact E2.
  assert (PT: plain_Ez t 1).
  { unfold plain_Ez in *. destruct PL as (_ & P1 & P2 & P3 & P4 & P5 & P6). split; [apply set_eps_consistent|]. exact (conj P1 (conj P2 (conj P3 (conj P4 (conj P5 P6))))). }
  split; [exact PT|]. split; [|auto].
  destruct PT as (PC & P1 & P2 & P3 & P4 & P5 & P6 & P7 & P8 & P9).
  destruct (consistent_A t PC) as [EA _]. rewrite EA, P1, P2. unfold s_M, s_epsC. apply Ez_nonsingular with (d := 1%R); try assumption.
  intros k Hk. rewrite T1, T2 in Hk. rewrite (nd_buf_at (s_eps t) Nx 6 k) by (try exact Hk; exact E2).
  assert (Y: (k / 6 < Nx)%nat) by (apply Nat.div_lt_upper_bound; lia). assert (Y2: (k mod 6 < 6)%nat) by (apply Nat.mod_upper_bound; lia).
  unfold t. rewrite (uniform_norm_eps mid_mode s 2 Nx) by (assumption || lia).
  change (s_omega (norm_sim mid_mode s 2)) with (s_omega s). change (s_L0 (norm_sim mid_mode s 2)) with (s_L0 s). rewrite Ho, HL.
  generalize ex_omega_sq. nra.
Qed.

(** a field on the columns 6 and 7 *)
Definition far_field (c : C) : vec := fun k => if Nat.eqb (k / 6) 6 then (c * Ci)%C else if Nat.eqb (k / 6) 7 then c else RtoC 0.
Lemma far_at c i j : (j < 6)%nat -> far_field c (pix 6 i j) = if Nat.eqb i 6 then (c * Ci)%C else if Nat.eqb i 7 then c else RtoC 0.
Proof. intro Hj. unfold far_field, pix. destruct (flat2 i 6 j Hj) as [-> _]. reflexivity. Qed.

(** Sources elsewhere change W_in. *)
Theorem C56_refuted : ~ C56_property.
Proof.
  intro H. destruct (fam_sim_ok "Ez" 9 6 0 0 two_eps (or_introl eq_refl)) as [s HS].
  destruct (fam_plain _ _ _ _ HS ltac:(lia) ltac:(lia) ltac:(intros; unfold two_eps; lra)) as (_ & HR & _ & E1 & E2 & _ & E4 & E5).
  destruct (fam_basic _ _ _ _ HS) as (Hp & Hd & HL & Ho & Ex & Ey & Ee & Es & HQ0).
  destruct (uniform_straight 9 s HS ltac:(lia)) as (PT & NT & T1 & T2). set (t := norm_sim mid_mode s 2) in *.
  assert (Hw: s_omega t <> 0%R) by (apply Rgt_not_eq; apply PT).
  set (x := (/ sqrt 3)%R). assert (Hx: (x ^ 2 = / 3)%R) by (unfold x; rewrite <- third; unfold Rsqr; ring).
  set (e := sign_env (fun _ => RtoC x)).
  set (sc := fun c => src_for t (far_field c)).
  assert (SC: forall c, nd_nx (sc c) = 9%nat /\ nd_ny (sc c) = 6%nat) by (intro c; split; assumption).
  assert (U := fun c => uniform_mode_set_up x 9 s (sc c) Hx HS ltac:(lia) (proj1 (SC c)) (proj2 (SC c))). cbv zeta in U. fold e t in U.
  assert (HM: s_M t = 54%nat) by (unfold s_M; rewrite T1, T2; reflexivity).
  (* the source of the far field vanishes on the line of the mode *)
  assert (OFF: forall c j, (j < 6)%nat -> nd_at (sc c) 2 j = RtoC 0).
  { intros c j Hj. unfold nd_at, sc, src_for. cbn [nd_buf nd_ny]. rewrite T2.
    destruct PT as (PC & P1 & P2 & P3 & P4 & P5 & P6 & P7 & P8 & P9). destruct (consistent_A t PC) as [EA _].
    rewrite EA, P1, P2. unfold s_M. replace (2 * 6 + j)%nat with (pix (s_Ny t) 2 j) by (rewrite T2; reflexivity).
    rewrite (mv_construct_Ez_stencil _ _ _ _ _ _ _ _ 1%R) by (try assumption; try lra; rewrite ?T1, ?T2; lia).
    rewrite T1, T2. unfold laplacian. rewrite !far_at by (try apply next_lt; try apply prev_lt; assumption).
    cbn [next prev Nat.eqb Nat.add Nat.sub Nat.ltb Nat.leb]. unfold Cdiv, Cminus. change (Nat.eqb 3 9) with false. cbn iota. ring. }
  (* the fields for the sources 1, -1, 0 *)
  assert (FD: forall c, exists s1 W z b, setup_src e mid_mode (upd_src (sc c) s) = (s1, Ok tt) /\ s_W_in s1 = Val W /\
     W = rsum 3 (fun k => density_x PolEz 6 z b 7 (1 + k)) /\ exists s2 a src, solve_fields e false false (upd_src src t) = (s2, Ok (a, b, z)) /\
     (forall k, (k < 54)%nat -> nd_buf src k = (nd_buf (sc c) k + (if (Nat.eqb (k / 6) 2 && Nat.leb 1 (k mod 6) && Nat.ltb (k mod 6) 4)%bool then mode_profile 1 (fun _ => RtoC x) (k mod 6 - 1) else RtoC 0))%C)).
  { intro c. destruct (U c) as (s1 & src & a & b & z & W & R1 & _ & N1 & N2 & V & SF & W1 & W2).
    exists s1, W, z, b. split; [exact R1|]. split; [exact W1|]. split; [exact W2|]. eexists _, a, src. split; [exact SF|].
    intros k Hk. assert (Y: (k / 6 < 9)%nat) by (apply Nat.div_lt_upper_bound; lia). assert (Y2: (k mod 6 < 6)%nat) by (apply Nat.mod_upper_bound; lia).
    rewrite (nd_buf_at src 9 6 k N2 Hk), (nd_buf_at (sc c) 9 6 k (proj2 (SC c)) Hk). rewrite V by assumption.
    destruct (Nat.eqb_spec (k / 6) 2) as [EQ|]; cbn [andb]; [|ring]. destruct (_ && _)%bool; [|ring]. rewrite EQ, OFF by exact Y2. ring. }
  destruct (FD (RtoC 1)) as (sp & Wp & zp & bp & Rp & Vp & Dp & up & ap & srcp & Sp & Bp).
  destruct (FD (RtoC (-1))) as (sm & Wm & zm & bm & Rm & Vm & Dm & um & am & srcm & Sm & Bm).
  destruct (FD (RtoC 0)) as (so & Wo & zo & bo & Ro & Vo & Do & uo & ao & srco & So & Bo).
  assert (HV: forall c, full_shape s (sc c)) by (intro c; split; [rewrite Ex|rewrite Ey]; apply SC).
  assert (ST: straight_solvable mid_mode s).
  { intros eps c EN. unfold norm_structure in EN. change (md_normal mid_mode) with "x" in EN. change (String.eqb "x" "x") with true in EN. cbn iota in EN.
    change (fst (md_center mid_mode)) with 2%Z in EN. unfold py_index in EN. rewrite Ee in EN. cbn [nd_nx nd_ny] in EN. 
    change ((- Z.of_nat 9 <=? 2)%Z && (2 <? Z.of_nat 9)%Z)%bool with true in EN. cbn iota in EN. change (2 <? 0)%Z with false in EN. cbn iota in EN. change (Z.to_nat 2) with 2%nat in EN.
    injection EN as <- _. replace (set_eps _ s) with t; [exact NT|]. unfold t, norm_sim. rewrite Ex, Ey, Ee. reflexivity. }
  assert (G := fun c1 c2 s1 s2 => H e _ mid_mode s (sc c1) (sc c2) s1 s2 (HR e) (sign_env_exact _) (sign_env_correct _) ST (HV c1) (HV c2)).
  assert (Q1 := G _ _ _ _ Rp Ro). assert (Q2 := G _ _ _ _ Rm Ro).
  rewrite Vp, Vo in Q1. rewrite Vm, Vo in Q2.
  apply (f_equal (fun r => match r with Val P => P | _ => 0%R end)) in Q1; cbv beta iota in Q1.
  apply (f_equal (fun r => match r with Val P => P | _ => 0%R end)) in Q2; cbv beta iota in Q2.
  (* the fields differ by the far field *)
  assert (ZD: forall c z b u a src, solve_fields e false false (upd_src src t) = (u, Ok (a, b, z)) ->
     (forall k, (k < 54)%nat -> nd_buf src k = (nd_buf (sc c) k + (if (Nat.eqb (k / 6) 2 && Nat.leb 1 (k mod 6) && Nat.ltb (k mod 6) 4)%bool then mode_profile 1 (fun _ => RtoC x) (k mod 6 - 1) else RtoC 0))%C) ->
     forall k, (k < 54)%nat -> z k = (zo k + far_field c k)%C).
  { intros c z b u a src SF SB. rewrite <- HM.
    assert (S1 := solve_fields_solves e false false (upd_src src t) _ _ _ _ (sign_env_exact _) NT SF).
    assert (S2 := solve_fields_solves e false false (upd_src srco t) _ _ _ _ (sign_env_exact _) NT So).
    unfold used_matrix in S1, S2. change (s_A (upd_src src t)) with (s_A t) in S1. change (s_A (upd_src srco t)) with (s_A t) in S2.
    change (s_M (upd_src src t)) with (s_M t) in S1. change (s_M (upd_src srco t)) with (s_M t) in S2.
    assert (S3: solves (s_M t) (s_A t) (vplus zo (far_field c)) (rhs (upd_src src t))).
    { intros r Hr. change (mv (s_M t) (s_A t) (vplus zo (far_field c)) r = rhs (upd_src src t) r). rewrite mv_vplus.
      assert (S2' := S2 r Hr). change (mv (s_M t) (s_A t) zo r = rhs (upd_src srco t) r) in S2'. rewrite S2'.
      unfold rhs. cbn [upd_src s_src s_omega]. rewrite HM in Hr. rewrite SB, Bo by exact Hr. unfold sc, src_for. cbn [nd_buf].
      assert (Z0: mv (s_M t) (s_A t) (far_field (RtoC 0)) r = RtoC 0).
      { unfold mv. apply csum_0. intros k _. unfold far_field. destruct (Nat.eqb (k / 6) 6); [ring|]. destruct (Nat.eqb (k / 6) 7); ring. }
      rewrite Z0. field. split; [apply RtoC_neq0; exact Hw|exact Ci_neq0]. }
    intros k Hk. exact (solves_unique _ _ _ _ _ NT S1 S3 k Hk). }
  assert (Zp := ZD _ _ _ _ _ _ Sp Bp). assert (Zm := ZD _ _ _ _ _ _ Sm Bm).
  assert (Dn := fun src u a b z j (SF: solve_fields e false false (upd_src src t) = (u, Ok (a, b, z))) (Hj : (j < 6)%nat) =>
     Ez_density_x e _ _ 1%R _ _ _ 7%nat j false (plain_upd_src _ _ src PT) SF).
  cbn [upd_src s_Nx s_Ny s_omega s_L0] in Dn. rewrite T1, T2 in Dn.
  assert (Hden: (0 < 4 * s_omega t * (MU_0 * s_L0 t) * 1)%R).
  { assert (0 < s_omega t)%R by apply PT. assert (0 < s_L0 t)%R by apply PT. assert (0 < MU_0)%R by apply MU_0_pos.
    repeat apply Rmult_lt_0_compat; lra. }
  set (den := (4 * s_omega t * (MU_0 * s_L0 t) * 1)%R) in *.
  assert (PAR: forall k, (k < 3)%nat ->
     (density_x PolEz 6 zp bp 7 (1 + k) + density_x PolEz 6 zm bm 7 (1 + k) = 2 * density_x PolEz 6 zo bo 7 (1 + k) + 2 / den)%R).
  { intros k Hk. rewrite (Dn _ _ _ _ _ _ Sp), (Dn _ _ _ _ _ _ Sm), (Dn _ _ _ _ _ _ So) by lia.
    cbn [prev]. rewrite !Zp, !Zm by (unfold pix; lia). rewrite !far_at by lia. cbn [Nat.eqb].
    set (z6 := zo (pix 6 6 (1 + k))). set (z7 := zo (pix 6 7 (1 + k))). set (z8 := zo (pix 6 8 (1 + k))).
    autorewrite with reim. cbn [Re Im RtoC Ci fst snd]. field. lra. }
  rewrite Dp, Do in Q1. rewrite Dm, Do in Q2. cbn [rsum] in Q1, Q2.
  assert (P0 := PAR 0%nat ltac:(lia)). assert (P1 := PAR 1%nat ltac:(lia)). assert (P2 := PAR 2%nat ltac:(lia)).
  assert (0 < 2 / den)%R by (apply Rdiv_lt_0_compat; lra). lra.
Qed.

(* ------------------------------------------------------------------ *)
(** ** C57 *)

(** C58, lines normal to y *)
Theorem C58_no_power_on_the_last_row :
  forall (s : sim) (nl : bool) (z f1 : vec) (c0 c1 w : Z),
  probe_fields nl s (pol_comp (s_pol s)) = Some z ->
  probe_fields nl s (match s_pol s with PolEz => Hx | PolHz => Ex end) = Some f1 ->
  (2 <= s_Ny s)%nat -> (Z.of_nat (s_Ny s) - 1 <= c1)%Z \/ c1 = (-1)%Z \/ c1 = (-2)%Z ->
  (0 <= w)%Z -> (0 <= c0 - (w + 1) / 2)%Z -> (c0 - (w + 1) / 2 + w < Z.of_nat (s_Nx s))%Z ->
  flux_probe "y" (c0, c1) w nl s = Ok 0%R.
Proof.
  intros s nl z f1 c0 c1 w Hz H2 A1 A2 A3 A4 A5. unfold probe_fields in *.
  assert (Q1: Z.quot (2 * c0 - w) 2 = (c0 - (w + 1) / 2)%Z) by (Z.to_euclidean_division_equations; lia).
  assert (Q2: Z.quot (2 * c0 + w) 2 = (c0 - (w + 1) / 2 + w)%Z) by (Z.to_euclidean_division_equations; lia).
  unfold flux_probe, line_inds. change (String.eqb "y" "x") with false. change (String.eqb "y" "y") with true. cbn iota. cbn [fst snd]. rewrite Q1, Q2, Hz.
  change (comp1 (s_pol s)) with (match s_pol s with PolEz => Hx | PolHz => Ex end). rewrite H2.
  set (lo := (c0 - (w + 1) / 2)%Z) in *.
  unfold nd_zip, nd_drop_last, nd_average. cbn [nd_slice nd_nx nd_ny].
  rewrite !(slice_bound_in _ lo), !(slice_bound_in _ (lo + w + 1)), !(slice_bound_in _ (lo + w)) by lia.
  assert (HR: (slice_bound (s_Ny s) (c1 + 1 + 1) - slice_bound (s_Ny s) c1 <= 1)%nat).
  { unfold slice_bound. destruct (Z.ltb_spec c1 0), (Z.ltb_spec (c1 + 1 + 1) 0); lia. }
  set (r := (slice_bound (s_Ny s) (c1 + 1 + 1) - slice_bound (s_Ny s) c1)%nat) in *.
  assert (HR2: (slice_bound (s_Ny s) (c1 + 1) - slice_bound (s_Ny s) c1 <= 1)%nat).
  { unfold slice_bound. destruct (Z.ltb_spec c1 0), (Z.ltb_spec (c1 + 1) 0); lia. }
  set (r2 := (slice_bound (s_Ny s) (c1 + 1) - slice_bound (s_Ny s) c1)%nat) in *.
  rewrite !(slice_bound_in _ 0), !(slice_bound_neg _ (-1)) by lia.
  replace (Z.to_nat (-1 + Z.of_nat r) - Z.to_nat 0)%nat with 0%nat by lia.
  replace (Z.to_nat (-1 + Z.of_nat (Z.to_nat (lo + w + 1) - Z.to_nat lo)) - Z.to_nat 0)%nat with (Z.to_nat (lo + w) - Z.to_nat lo)%nat by lia.
  rewrite bdim_same.
  assert (HB: bdim 0 r2 = Some O). { destruct r2 as [|[|]]; [reflexivity|reflexivity|lia]. }
  rewrite HB. unfold nd_sum, nd_size; cbn [nd_nx nd_ny nd_buf]. rewrite Nat.mul_0_r. cbn [rsum]. f_equal. ring.
Qed.
Theorem C58_line_to_the_right_border_raises :
  forall (s : sim) (nl : bool) (z f1 : vec) (c0 c1 w : Z),
  probe_fields nl s (pol_comp (s_pol s)) = Some z ->
  probe_fields nl s (match s_pol s with PolEz => Hx | PolHz => Ex end) = Some f1 ->
  (0 <= c1)%Z -> (c1 + 1 < Z.of_nat (s_Ny s))%Z ->
  (3 <= w)%Z -> (0 <= c0 - (w + 1) / 2)%Z -> (c0 - (w + 1) / 2 + w = Z.of_nat (s_Nx s))%Z ->
  flux_probe "y" (c0, c1) w nl s = Raise ValueError.
Proof.
  intros s nl z f1 c0 c1 w Hz H2 A1 A2 A3 A4 A5. unfold probe_fields in *.
  assert (Q1: Z.quot (2 * c0 - w) 2 = (c0 - (w + 1) / 2)%Z) by (Z.to_euclidean_division_equations; lia).
  assert (Q2: Z.quot (2 * c0 + w) 2 = Z.of_nat (s_Nx s)) by (rewrite <- A5; Z.to_euclidean_division_equations; lia).
  unfold flux_probe, line_inds. change (String.eqb "y" "x") with false. change (String.eqb "y" "y") with true. cbn iota. cbn [fst snd]. rewrite Q1, Q2, Hz.
  change (comp1 (s_pol s)) with (match s_pol s with PolEz => Hx | PolHz => Ex end). rewrite H2.
  set (lo := (c0 - (w + 1) / 2)%Z) in *.
  unfold nd_zip, nd_drop_last, nd_average. cbn [nd_slice nd_nx nd_ny].
  rewrite (slice_bound_in _ lo), (slice_bound_ge _ (Z.of_nat (s_Nx s) + 1)), (slice_bound_in _ (Z.of_nat (s_Nx s))) by lia.
  rewrite !(slice_bound_in _ c1), !(slice_bound_in _ (c1 + 1)), !(slice_bound_in _ (c1 + 1 + 1)) by lia.
  rewrite Nat2Z.id.
  assert (W: (s_Nx s - Z.to_nat lo = Z.to_nat w)%nat) by lia. rewrite W.
  rewrite !(slice_bound_in _ 0), !(slice_bound_neg _ (-1)) by lia.
  replace (bdim (Z.to_nat (-1 + Z.of_nat (Z.to_nat w)) - Z.to_nat 0) (Z.to_nat w)) with (@None nat).
  - reflexivity.
  - unfold bdim.
    destruct (Nat.eqb_spec (Z.to_nat (-1 + Z.of_nat (Z.to_nat w)) - Z.to_nat 0) (Z.to_nat w)); [lia|].
    destruct (Nat.eqb_spec (Z.to_nat (-1 + Z.of_nat (Z.to_nat w)) - Z.to_nat 0) 1); [lia|].
    destruct (Nat.eqb_spec (Z.to_nat w) 1); [lia|reflexivity].
Qed.

Lemma norm_inv e m s W : compute_normalization e m s = Ok W -> consistent s ->
  exists eps c src s2 a b z, norm_structure m (s_eps s) = Ok (eps, c) /\
    insert_mode e m (set_eps eps s) (s_src s) = Ok src /\
    solve_fields e false false (upd_src src (set_eps eps s)) = (s2, Ok (a, b, z)) /\
    probe_fields false s2 (pol_comp (s_pol s2)) = Some z /\
    probe_fields false s2 (match s_pol s2 with PolEz => Hx | PolHz => Ex end) = Some a /\
    probe_fields false s2 (match s_pol s2 with PolEz => Hy | PolHz => Ey end) = Some b /\
    s_Nx s2 = s_Nx s /\ s_Ny s2 = s_Ny s /\ s_dl s2 = s_dl s /\ s_pol s2 = s_pol s /\
    flux_probe (md_normal m) c (md_width m) false s2 = Ok W.
Proof.
  intros H (C1 & C2 & _). unfold compute_normalization in H.
  destruct (norm_structure m (s_eps s)) as [[eps c]|] eqn:EN; [|discriminate]. cbv zeta in H.
  change (s_src (set_eps eps s)) with (s_src s) in H.
  destruct (insert_mode e m (set_eps eps s) (s_src s)) as [src|] eqn:EI; [|discriminate].
  destruct (solve_fields e false false (upd_src src (set_eps eps s))) as [s2 [[[a b] z]|]] eqn:ES; [|discriminate].
  destruct (norm_structure_shape _ _ _ _ EN) as [X1 X2].
  exists eps, c, src, s2, a, b, z. split; [reflexivity|]. split; [exact EI|]. split; [exact ES|].
  apply solve_fields_lin_state in ES as (G & [(? & _)|(_ & X & _ & F & R)]); [discriminate|]. cbv zeta in R. injection R as -> -> ->.
  unfold same_problem in G. cbn [upd_src set_eps s_pol s_Nx s_Ny s_dl s_omega s_L0 s_NPML s_xrange s_yrange s_eps s_A s_derivs s_src] in G.
  assert (EP: s_pol s2 = s_pol s) by intuition congruence. unfold probe_fields. rewrite F, EP.
  change (s_pol (upd_src src (set_eps eps s))) with (s_pol s).
  split; [destruct (s_pol s); reflexivity|]. split; [destruct (s_pol s); reflexivity|]. split; [destruct (s_pol s); reflexivity|].
  split; [intuition congruence|]. split; [intuition congruence|]. split; [intuition congruence|]. split; [reflexivity|]. exact H.
Qed.
Lemma setup_W e m s s' : setup_src e m s = (s', Ok tt) -> exists W, compute_normalization e m s = Ok W /\ s_W_in s' = Val W.
Proof.
  intro H. apply setup_src_inv in H as (_ & _ & _ & _ & _ & _ & _ & _ & _ & W & K & E). exists W. split; [exact K|]. rewrite E. reflexivity.
Qed.

(** A mode whose centre is at least two pixels from the left (bottom) border and whose
    line ends before the last pixel: W_in adds up exactly width pixels, at the mirrored
    position, of the fields of the mode in the straight waveguide [t] (every column as
    the column of the source). *)
Definition straight_along (m : mode) (s t : sim) : Prop :=
  exists top : R, forall i j, (i < s_Nx s)%nat -> (j < s_Ny s)%nat ->
  nd_at (s_eps t) i j =
    (if Rlt_dec 1 (if String.eqb (md_normal m) "x" then nd_at (s_eps s) (Z.to_nat (fst (md_center m))) j
                   else nd_at (s_eps s) i (Z.to_nat (snd (md_center m)))) then top else 1%R).
Theorem C57_measured_inside_partial :
  forall e m s s', reachable e s -> setup_src e m s = (s', Ok tt) ->
  let '(c0, c1) := md_center m in let w := md_width m in (0 <= w)%Z ->
  (md_normal m = "x" -> (2 <= c0 < Z.of_nat (s_Nx s))%Z -> (0 <= c1 - (w + 1) / 2)%Z -> (c1 - (w + 1) / 2 + w < Z.of_nat (s_Ny s))%Z ->
   exists t src u a b z, straight_along m s t /\ insert_mode e m t (s_src s) = Ok src /\ solve_fields e false false (upd_src src t) = (u, Ok (a, b, z)) /\
     s_W_in s' = Val (s_dl s * rsum (Z.to_nat w) (fun k =>
       density_x (s_pol s) (s_Ny s) z b (s_Nx s - Z.to_nat c0) (Z.to_nat (c1 - (w + 1) / 2) + k)))%R) /\
  (md_normal m = "y" -> (2 <= c1 < Z.of_nat (s_Ny s))%Z -> (0 <= c0 - (w + 1) / 2)%Z -> (c0 - (w + 1) / 2 + w < Z.of_nat (s_Nx s))%Z ->
   exists t src u a b z, straight_along m s t /\ insert_mode e m t (s_src s) = Ok src /\ solve_fields e false false (upd_src src t) = (u, Ok (a, b, z)) /\
     s_W_in s' = Val (s_dl s * rsum (Z.to_nat w) (fun k =>
       density_y (s_pol s) (s_Ny s) z a (Z.to_nat (c0 - (w + 1) / 2) + k) (s_Ny s - Z.to_nat c1)))%R).
Proof.
  intros e m s s' HR H. destruct (md_center m) as [c0 c1] eqn:EC. intros w Hw.
  assert (HC := reachable_consistent e s HR). apply setup_W in H as (W & K & ->).
  destruct (norm_inv e m s W K HC) as (eps & c & src & s2 & a & b & z & EN & EI & ES & F1 & F2 & F3 & D1 & D2 & D3 & D4 & FL).
  fold w in FL.
  assert (HQ := C58_exactly_width_pixels_partial s2 false z a b).
  destruct HC as (C1 & C2 & _).
  split; intros Hn Hc Hl Hr; exists (set_eps eps s), src, s2, a, b, z.
  - unfold norm_structure in EN. rewrite Hn in EN. change (String.eqb "x" "x") with true in EN. cbn iota in EN. rewrite EC in EN. cbn [fst snd] in EN.
    unfold py_index in EN. rewrite <- C1 in EN. rewrite (proj2 (Z.leb_le _ _)), (proj2 (Z.ltb_lt _ _)) in EN by lia. cbn [andb] in EN.
    rewrite (proj2 (Z.ltb_ge _ _)) in EN by lia. injection EN as EE EC'.
    split; [|split; [exact EI|split; [exact ES|]]].
    + eexists. intros i j Hi Hj. rewrite <- EE. cbn [set_eps s_eps]. unfold nd_at at 1. cbn [nd_buf nd_ny]. rewrite <- C2.
      destruct (flat2 i (s_Ny s) j Hj) as [_ ->]. rewrite Hn, EC. change (String.eqb "x" "x") with true. cbn [fst snd]. reflexivity.
    + rewrite Hn, <- EC' in FL. destruct (HQ (Z.of_nat (s_Nx s) - c0)%Z c1 w F1 F2 F3 Hw) as [HX _].
      rewrite HX in FL by lia. rewrite D1 || idtac. rewrite D2, D3, D4 in FL.
      replace (Z.to_nat (Z.of_nat (s_Nx s) - c0)) with (s_Nx s - Z.to_nat c0)%nat in FL by lia.
      apply (f_equal (fun r => match r with Ok P => P | Raise _ => 0%R end)) in FL; cbv beta iota in FL. rewrite FL. reflexivity.
  - unfold norm_structure in EN. rewrite Hn in EN. change (String.eqb "y" "x") with false in EN. change (String.eqb "y" "y") with true in EN. cbn iota in EN. rewrite EC in EN. cbn [fst snd] in EN.
    unfold py_index in EN. rewrite <- C2 in EN. rewrite (proj2 (Z.leb_le _ _)), (proj2 (Z.ltb_lt _ _)) in EN by lia. cbn [andb] in EN.
    rewrite (proj2 (Z.ltb_ge _ _)) in EN by lia. injection EN as EE EC'.
    split; [|split; [exact EI|split; [exact ES|]]].
    + eexists. intros i j Hi Hj. rewrite <- EE. cbn [set_eps s_eps]. unfold nd_at at 1. cbn [nd_buf nd_ny].
      destruct (flat2 i (s_Ny s) j Hj) as [-> _]. rewrite Hn, EC. change (String.eqb "y" "x") with false. cbn [fst snd]. reflexivity.
    + rewrite Hn, <- EC' in FL. destruct (HQ c0 (Z.of_nat (s_Ny s) - c1)%Z w F1 F2 F3 Hw) as [_ HX].
      rewrite HX in FL by lia. rewrite D2, D3, D4 in FL.
      replace (Z.to_nat (Z.of_nat (s_Ny s) - c1)) with (s_Ny s - Z.to_nat c1)%nat in FL by lia.
      apply (f_equal (fun r => match r with Ok P => P | Raise _ => 0%R end)) in FL; cbv beta iota in FL. rewrite FL. reflexivity.
Qed.

(** For the first two columns (rows) and for every negative index the probe is on or
    behind the last column (row): W_in is zero whatever the fields are. *)
Theorem C57_zero_power_near_the_border :
  forall e m s s', reachable e s -> setup_src e m s = (s', Ok tt) ->
  let '(c0, c1) := md_center m in let w := md_width m in (0 <= w)%Z ->
  (md_normal m = "x" /\ (2 <= s_Nx s)%nat /\ (c0 <= 1)%Z /\ (0 <= c1 - (w + 1) / 2)%Z /\ (c1 - (w + 1) / 2 + w < Z.of_nat (s_Ny s))%Z) \/
  (md_normal m = "y" /\ (2 <= s_Ny s)%nat /\ (c1 <= 1)%Z /\ (0 <= c0 - (w + 1) / 2)%Z /\ (c0 - (w + 1) / 2 + w < Z.of_nat (s_Nx s))%Z) ->
  s_W_in s' = Val 0%R.
Proof.
  intros e m s s' HR H. destruct (md_center m) as [c0 c1] eqn:EC. intros w Hw HH.
  assert (HC := reachable_consistent e s HR). apply setup_W in H as (W & K & ->).
  destruct (norm_inv e m s W K HC) as (eps & c & src & s2 & a & b & z & EN & EI & ES & F1 & F2 & F3 & D1 & D2 & D3 & D4 & FL).
  destruct HC as (C1 & C2 & _). fold w in FL. f_equal. unfold norm_structure in EN. rewrite EC in EN. cbn [fst snd] in EN.
  destruct HH as [(Hn & HN & Hc & Hl & Hr)|(Hn & HN & Hc & Hl & Hr)]; rewrite Hn in EN, FL.
  - change (String.eqb "x" "x") with true in EN. cbn iota in EN. destruct (py_index _ _); [|discriminate]. injection EN as _ <-.
    rewrite (C58_no_power_on_the_last_column s2 false z b) in FL; try assumption; try lia.
    apply (f_equal (fun r => match r with Ok P => P | Raise _ => 0%R end)) in FL; cbv beta iota in FL. symmetry. exact FL.
  - change (String.eqb "y" "x") with false in EN. change (String.eqb "y" "y") with true in EN. cbn iota in EN. destruct (py_index _ _); [|discriminate]. injection EN as _ <-.
    rewrite (C58_no_power_on_the_last_row s2 false z a) in FL; try assumption; try lia.
    apply (f_equal (fun r => match r with Ok P => P | Raise _ => 0%R end)) in FL; cbv beta iota in FL. symmetry. exact FL.
Qed.

(** The last column given as -1 cannot be set up at all. *)
Theorem C57_index_minus_one_raises :
  forall e m s, reachable e s -> (0 < s_Nx s)%nat -> (0 < s_Ny s)%nat ->
  (md_normal m = "x" /\ fst (md_center m) = (-1)%Z) \/ (md_normal m = "y" /\ snd (md_center m) = (-1)%Z) ->
  exists s', setup_src e m s = (s', Raise ValueError).
Proof.
  intros e m s HR NX NY HH.
  destruct (reachable_consistent e s HR) as (C1 & C2 & _).
  assert (EI: forall t d, nd_nx (s_eps t) = nd_nx (s_eps s) -> nd_ny (s_eps t) = nd_ny (s_eps s) -> insert_mode e m t d = Raise ValueError).
  { intros t d T1 T2. unfold insert_mode, line_inds.
    destruct HH as [[Hn Hc]|[Hn Hc]]; rewrite Hn, Hc.
    - change (String.eqb "x" "x") with true. cbn iota. cbv zeta. unfold nd_size. cbn [nd_slice nd_nx nd_ny].
      replace (slice_bound (nd_nx (s_eps t)) (-1 + 1) - slice_bound (nd_nx (s_eps t)) (-1))%nat with 0%nat; [reflexivity|].
      change (-1 + 1)%Z with 0%Z. rewrite (slice_bound_in _ 0) by lia. reflexivity.
    - change (String.eqb "y" "x") with false. change (String.eqb "y" "y") with true. cbn iota. cbv zeta. unfold nd_size. cbn [nd_slice nd_nx nd_ny].
      replace (slice_bound (nd_ny (s_eps t)) (-1 + 1) - slice_bound (nd_ny (s_eps t)) (-1))%nat with 0%nat; [rewrite Nat.mul_0_r; reflexivity|].
      change (-1 + 1)%Z with 0%Z. rewrite (slice_bound_in _ 0) by lia. reflexivity. }
  exists s. unfold setup_src, compute_normalization.
  destruct (norm_structure m (s_eps s)) as [[eps c]|x] eqn:EN.
  - destruct (norm_structure_shape _ _ _ _ EN) as [X1 X2]. cbv zeta. rewrite (EI (set_eps eps s)) by assumption. reflexivity.
  - exfalso. unfold norm_structure, py_index in EN. destruct HH as [[Hn Hc]|[Hn Hc]]; rewrite Hn, Hc in EN.
    + change (String.eqb "x" "x") with true in EN. cbn iota in EN. rewrite (proj2 (Z.leb_le _ _)), (proj2 (Z.ltb_lt _ _)) in EN by lia. discriminate.
    + change (String.eqb "y" "x") with false in EN. change (String.eqb "y" "y") with true in EN. cbn iota in EN. rewrite (proj2 (Z.leb_le _ _)), (proj2 (Z.ltb_lt _ _)) in EN by lia. discriminate.
Qed.

(** The property as claimed: for every position of the source (python index into the
    domain) the probe is on a column i with a right neighbour (the field is averaged). *)
Definition C57_property : Prop :=
  forall m (eps : nd R) eps' c, (2 <= nd_nx eps)%nat -> (2 <= nd_ny eps)%nat -> md_normal m = "x" ->
  (- Z.of_nat (nd_nx eps) <= fst (md_center m) < Z.of_nat (nd_nx eps))%Z ->
  norm_structure m eps = Ok (eps', c) -> (0 <= fst c)%Z /\ (fst c + 1 < Z.of_nat (nd_nx eps))%Z.
Theorem C57_refuted : ~ C57_property.
Proof.
  intro H. assert (Q := H (mkMode 1 "x" (1, 1)%Z 1 1 1) (mkNd 4 4 (fun _ => 1%R)) _ _ ltac:(cbn; lia) ltac:(cbn; lia) eq_refl ltac:(cbn; lia) eq_refl).
  cbn in Q. lia.
Qed.

(* ------------------------------------------------------------------ *)
(** ** Concrete cases *)

Definition edge_mode : mode := mkMode 1 "x" (1, 3)%Z 3 1 1.
Lemma edge_mode_line : x_line edge_mode 1 1 3.
Proof. unfold x_line, edge_mode; cbn. auto. Qed.
Lemma uniform_edge_set_up s : fam_sim "Ez" 9 6 0 0 two_eps = Ok s ->
  exists s1, setup_src (sign_env (fun _ => RtoC (/ sqrt 3))) edge_mode s = (s1, Ok tt).
Proof.
  intro HS. set (x := (/ sqrt 3)%R). assert (Hx: (x ^ 2 = / 3)%R) by (unfold x; rewrite <- third; unfold Rsqr; ring).
  set (e := sign_env (fun _ => RtoC x)).
  destruct (fam_basic _ _ _ _ HS) as (Hp & Hd & HL & Ho & Ex & Ey & Ee & Es & HQ).
  assert (E0: e_eigs e 3 (mode_matrix s (line_slice s 1 1 3)) 1 (beta2 edge_mode s) = Ok (fun _ => RtoC x)).
  { apply (uniform_eig x 1 9); try assumption; try lia. intros i j Hi Hj. rewrite Ee. reflexivity. }
  assert (E1: e_eigs e 3 (mode_matrix (norm_sim edge_mode s 1) (line_slice (norm_sim edge_mode s 1) 1 1 3)) 1 (beta2 edge_mode s) = Ok (fun _ => RtoC x)).
  { change (beta2 edge_mode s) with (beta2 edge_mode (norm_sim edge_mode s 1)). apply (uniform_eig x 1 9); try assumption; try lia; [exact (norm_square edge_mode s 1 HQ)|].
    apply uniform_norm_eps; try assumption; lia. }
  destruct (norm_x edge_mode 1 1 3 e s (fun _ => RtoC x) edge_mode_line HQ ltac:(lia) ltac:(lia) ltac:(lia) E1) as (src & a & b & z & HI & D1 & D2 & D3 & H4). cbv zeta in H4. destruct H4 as [HF HW].
  set (s2 := upd_fields _ _) in HW, HF.
  assert (P2: s_pol s2 = PolEz) by exact Hp. assert (X2: s_Nx s2 = 9%nat) by exact Ex. assert (Y2: s_Ny s2 = 6%nat) by exact Ey.
  rewrite (C58_no_power_on_the_last_column s2 false z b) in HW.
  2:{ rewrite P2. subst s2. unfold probe_fields. cbn [upd_fields s_fields]. rewrite Hp. reflexivity. }
  2:{ rewrite P2. subst s2. unfold probe_fields. cbn [upd_fields s_fields]. rewrite Hp. reflexivity. }
  2: lia. 2: left; rewrite Ex, X2; lia. 2: lia. 2: cbn; lia. 2: rewrite Y2; cbn; lia.
  unfold setup_src. rewrite HW. cbv zeta.
  destruct (insert_x edge_mode 1 1 3 e (upd_W_in 0 s) (s_src s) (fun _ => RtoC x) edge_mode_line HQ) as (d & ED & _).
  { rewrite Es. symmetry. exact Ex. }
  { rewrite Es. symmetry. exact Ey. }
  { change (1 < s_Nx s)%nat. lia. }
  { change (1 + 3 <= s_Ny s)%nat. lia. }
  { lia. }
  { exact E0. }
  change (s_src (upd_W_in 0 s)) with (s_src s). rewrite ED. eexists. reflexivity.
Qed.

(** A 9 x 6 simulation of permittivity 2 with the mode on the pixels (2,1), (2,2), (2,3). *)
Example C55_met :
  exists e lam s s1, reachable e s /\ eigs_correct e lam /\ setup_src e mid_mode s = (s1, Ok tt) /\
    on_line mid_mode (nd_nx (s_src s)) (nd_ny (s_src s)) 2 2 /\ ~ on_line mid_mode (nd_nx (s_src s)) (nd_ny (s_src s)) 2 4 /\
    nd_at (s_src s1) 2 2 <> RtoC 0 /\ Re (RtoC (/ sqrt 3)) <> 0%R.
Proof.
  destruct (fam_sim_ok "Ez" 9 6 0 0 two_eps (or_introl eq_refl)) as [s HS].
  destruct (fam_plain _ _ _ _ HS ltac:(lia) ltac:(lia) ltac:(intros; unfold two_eps; lra)) as (_ & HR & _).
  destruct (fam_basic _ _ _ _ HS) as (Hp & Hd & HL & Ho & Ex & Ey & Ee & Es & HQ).
  destruct (uniform_mode_set_up (/ sqrt 3) 9 s (s_src s) ltac:(rewrite <- third; unfold Rsqr; ring) HS ltac:(lia) ltac:(rewrite Es; reflexivity) ltac:(rewrite Es; reflexivity)) as (s1 & ? & ? & ? & ? & ? & R1 & V1 & _).
  assert (ES: upd_src (s_src s) s = s) by (destruct s; reflexivity). rewrite ES in R1.
  assert (P: (0 < / sqrt 3)%R) by (apply Rinv_0_lt_compat, sqrt_lt_R0; lra).
  exists (sign_env (fun _ => RtoC (/ sqrt 3))), (fun _ _ _ _ => RtoC 32), s, s1. split; [apply HR|]. split; [apply sign_env_correct|]. split; [exact R1|].
  rewrite Es. cbn [nd_nx nd_ny]. split; [|split; [|split]].
  - left. split; [reflexivity|]. unfold in_slice, half. cbn. lia.
  - intros [(_ & _ & Q)|(Q & _)]; [|discriminate]. unfold in_slice, half in Q. cbn in Q. lia.
  - rewrite V1 by lia. unfold mode_profile. intro Q. apply (f_equal Re) in Q. cbn [Re RtoC fst] in Q.
    rewrite Cmod_mult, !Cmod_R, Rabs_R1 in Q. autorewrite with reim in Q. cbn [Re Im RtoC fst snd] in Q.
    replace (/ sqrt 3 * 1 - 0 * 0)%R with (/ sqrt 3)%R in Q by ring.
    destruct (np_sign_cases (/ sqrt 3)) as [[? E]|[[? E]|[? E]]]; try lra. rewrite E, Rabs_pos_eq in Q by lra. lra.
  - cbn [Re RtoC fst]. lra.
Qed.

(** The same mode with two sources that differ on its line only. *)
Example C56_met :
  exists e s a b s1 s2, reachable e s /\ solver_exact e /\ straight_solvable mid_mode s /\ full_shape s a /\ full_shape s b /\
    nd_at a 2 2 <> nd_at b 2 2 /\ nd_at b 4 4 <> RtoC 0 /\
    (forall i j, (i < s_Nx s)%nat -> (j < s_Ny s)%nat -> ~ on_line mid_mode (s_Nx s) (s_Ny s) i j -> nd_at a i j = nd_at b i j) /\
    setup_src e mid_mode (upd_src a s) = (s1, Ok tt) /\ setup_src e mid_mode (upd_src b s) = (s2, Ok tt).
Proof.
  destruct (fam_sim_ok "Ez" 9 6 0 0 two_eps (or_introl eq_refl)) as [s HS].
  destruct (fam_plain _ _ _ _ HS ltac:(lia) ltac:(lia) ltac:(intros; unfold two_eps; lra)) as (_ & HR & _).
  destruct (fam_basic _ _ _ _ HS) as (Hp & Hd & HL & Ho & Ex & Ey & Ee & Es & HQ).
  destruct (uniform_straight 9 s HS ltac:(lia)) as (PT & NT & T1 & T2).
  set (a := mkNd 9 6 (fun _ => RtoC 1)). set (b := mkNd 9 6 (fun k => if Nat.eqb k 14 then RtoC 0 else RtoC 1)).
  destruct (uniform_mode_set_up (/ sqrt 3) 9 s a ltac:(rewrite <- third; unfold Rsqr; ring) HS ltac:(lia) eq_refl eq_refl) as (s1 & ? & ? & ? & ? & ? & R1 & _).
  destruct (uniform_mode_set_up (/ sqrt 3) 9 s b ltac:(rewrite <- third; unfold Rsqr; ring) HS ltac:(lia) eq_refl eq_refl) as (s2 & ? & ? & ? & ? & ? & R2 & _).
  exists (sign_env (fun _ => RtoC (/ sqrt 3))), s, a, b, s1, s2. split; [apply HR|]. split; [apply sign_env_exact|].
  split.
  { intros eps c EN. unfold norm_structure in EN. change (md_normal mid_mode) with "x" in EN. change (String.eqb "x" "x") with true in EN. cbn iota in EN.
    change (fst (md_center mid_mode)) with 2%Z in EN. unfold py_index in EN. rewrite Ee in EN. cbn [nd_nx nd_ny] in EN.
    change ((- Z.of_nat 9 <=? 2)%Z && (2 <? Z.of_nat 9)%Z)%bool with true in EN. cbn iota in EN. change (2 <? 0)%Z with false in EN. cbn iota in EN. change (Z.to_nat 2) with 2%nat in EN.
    injection EN as <- _. replace (set_eps _ s) with (norm_sim mid_mode s 2); [exact NT|]. unfold norm_sim. rewrite Ex, Ey, Ee. reflexivity. }
  split; [split; symmetry; assumption|]. split; [split; symmetry; assumption|].
  assert (N01: RtoC 1 <> RtoC 0) by (intro Q; apply (f_equal Re) in Q; cbn in Q; lra).
  split; [exact N01|]. split; [exact N01|]. split; [|split; assumption].
  intros i j Hi Hj HO. unfold nd_at, a, b. cbn [nd_buf nd_ny]. destruct (Nat.eqb_spec (i * 6 + j) 14) as [Q|]; [|reflexivity].
  exfalso. apply HO. rewrite Ex, Ey in *. assert (i = 2%nat /\ j = 2%nat) as [-> ->] by lia.
  left. split; [reflexivity|]. unfold in_slice, half. cbn. lia.
Qed.

(** Both kinds of position can be set up: a mode on column 2 and one on column 1. *)
Example C57_met :
  exists e s s1 s2, reachable e s /\ setup_src e mid_mode s = (s1, Ok tt) /\ setup_src e edge_mode s = (s2, Ok tt) /\
    (2 <= fst (md_center mid_mode) < Z.of_nat (s_Nx s))%Z /\ (fst (md_center edge_mode) <= 1)%Z /\
    (forall m, m = mid_mode \/ m = edge_mode ->
       md_normal m = "x" /\ (0 <= snd (md_center m) - (md_width m + 1) / 2)%Z /\
       (snd (md_center m) - (md_width m + 1) / 2 + md_width m < Z.of_nat (s_Ny s))%Z).
Proof.
  destruct (fam_sim_ok "Ez" 9 6 0 0 two_eps (or_introl eq_refl)) as [s HS].
  destruct (fam_plain _ _ _ _ HS ltac:(lia) ltac:(lia) ltac:(intros; unfold two_eps; lra)) as (_ & HR & _).
  destruct (fam_basic _ _ _ _ HS) as (Hp & Hd & HL & Ho & Ex & Ey & Ee & Es & HQ).
  destruct (uniform_mode_set_up (/ sqrt 3) 9 s (s_src s) ltac:(rewrite <- third; unfold Rsqr; ring) HS ltac:(lia) ltac:(rewrite Es; reflexivity) ltac:(rewrite Es; reflexivity)) as (s1 & ? & ? & ? & ? & ? & R1 & V1 & _).
  assert (ES: upd_src (s_src s) s = s) by (destruct s; reflexivity). rewrite ES in R1.
  destruct (uniform_edge_set_up s HS) as (s2 & R2).
  exists (sign_env (fun _ => RtoC (/ sqrt 3))), s, s1, s2. split; [apply HR|]. split; [exact R1|]. split; [exact R2|]. rewrite Ex, Ey.
  split; [cbn; lia|]. split; [cbn; lia|]. intros m [-> | ->]; (split; [reflexivity|]; cbn; lia).
Qed.

(** What is written on the line: position k of the line holds a real number whose
    modulus is |scale| times that of component k of a unit eigenvector of the line, with
    the sign of its real part. *)
Theorem C55_line_holds_the_eigenvector :
  forall e lam m s s', reachable e s -> eigs_correct e lam -> full_shape s (s_src s) -> setup_src e m s = (s', Ok tt) ->
  exists (L : nd R) (v : vec),
    unit_eigenvector (nd_size L) (mode_matrix s L) (lam (nd_size L) (mode_matrix s L) (md_order m) (beta2 m s)) v /\
    forall i j, (i < s_Nx s)%nat -> (j < s_Ny s)%nat -> on_line m (s_Nx s) (s_Ny s) i j ->
    exists k, (k < nd_size L)%nat /\ nd_buf L k = nd_at (s_eps s) i j /\
      (md_normal m = "x" -> forall j', (j' < s_Ny s)%nat -> (k + j' < j)%nat -> ~ on_line m (s_Nx s) (s_Ny s) i j') /\
      (md_normal m = "y" -> forall i', (i' < s_Nx s)%nat -> (k + i' < i)%nat -> ~ on_line m (s_Nx s) (s_Ny s) i' j) /\
      Im (nd_at (s_src s') i j) = 0%R /\
      ((0 < md_scale m * Re (v k))%R -> Re (nd_at (s_src s') i j) = (Rabs (md_scale m) * Cmod (v k))%R) /\
      ((md_scale m * Re (v k) < 0)%R -> Re (nd_at (s_src s') i j) = (- (Rabs (md_scale m) * Cmod (v k)))%R).
Proof.
  intros e lam m s s' HR HE [F1 F2] H. destruct (reachable_consistent e s HR) as (C1 & C2 & _).
  apply setup_src_inv in H as (i0 & i1 & j0 & j1 & v & EL & HZ & EE & EA & _). cbv zeta in HZ, EE, EA.
  set (L := nd_slice (s_eps s) i0 i1 j0 j1) in *. exists L, v. split; [exact (HE _ _ _ _ _ EE)|].
  intros i j Hi Hj HO. assert (HO' := HO). apply (line_inds_on m _ _ i j _ _ _ _ EL) in HO'.
  assert (Hj': (j < nd_ny (s_src s))%nat) by lia.
  destruct (assign_at _ _ _ _ _ _ _ i j EA Hj') as (_ & _ & A1 & _). rewrite F1, F2 in A1. specialize (A1 HO').
  destruct HO' as [I J]. rewrite in_slice_bounds in I, J.
  assert (N1: nd_nx L = (slice_bound (s_Nx s) i1 - slice_bound (s_Nx s) i0)%nat) by (unfold L; cbn [nd_slice nd_nx]; rewrite <- C1; reflexivity).
  assert (N2: nd_ny L = (slice_bound (s_Ny s) j1 - slice_bound (s_Ny s) j0)%nat) by (unfold L; cbn [nd_slice nd_ny]; rewrite <- C2; reflexivity).
  assert (LA: forall p q, (q < nd_ny L)%nat -> nd_buf L (p * nd_ny L + q) = nd_at (s_eps s) (slice_bound (s_Nx s) i0 + p) (slice_bound (s_Ny s) j0 + q)).
  { intros p q Hq. assert (T := nd_slice_at (s_eps s) i0 i1 j0 j1 p q). rewrite <- C1, <- C2 in T. rewrite <- T by (rewrite N2 in Hq; lia). reflexivity. }
  assert (PRO: forall k, nd_at (s_src s') i j = mode_profile (md_scale m) v k ->
      Im (nd_at (s_src s') i j) = 0%R /\
      ((0 < md_scale m * Re (v k))%R -> Re (nd_at (s_src s') i j) = (Rabs (md_scale m) * Cmod (v k))%R) /\
      ((md_scale m * Re (v k) < 0)%R -> Re (nd_at (s_src s') i j) = (- (Rabs (md_scale m) * Cmod (v k)))%R)).
  { intros k ->. unfold mode_profile. split; [reflexivity|]. rewrite Cmod_mult, Cmod_R. autorewrite with reim. cbn [Re Im RtoC fst snd].
    replace (Re (v k) * md_scale m - Im (v k) * 0)%R with (md_scale m * Re (v k))%R by ring.
    split; intro Q; destruct (np_sign_cases (md_scale m * Re (v k))) as [[? ->]|[[? ->]|[? ->]]]; try lra; ring. }
  assert (ON: forall p q, on_line m (s_Nx s) (s_Ny s) p q -> (slice_bound (s_Nx s) i0 <= p)%nat /\ (slice_bound (s_Ny s) j0 <= q)%nat).
  { intros p q Q. apply (line_inds_on m _ _ p q _ _ _ _ EL) in Q. rewrite !in_slice_bounds in Q. lia. }
  unfold line_inds in EL. destruct (String.eqb_spec (md_normal m) "x") as [EX|EX].
  - injection EL as <- <- _ _.
    assert (K1: nd_nx L = 1%nat). { rewrite N1. unfold slice_bound in I |- *. destruct (Z.ltb_spec (fst (md_center m)) 0), (Z.ltb_spec (fst (md_center m) + 1) 0); lia. }
    assert (KS: nd_size L = nd_ny L) by (unfold nd_size; rewrite K1; lia).
    exists (j - slice_bound (s_Ny s) j0)%nat. split; [rewrite KS, N2; lia|]. split.
    { assert (T := LA 0%nat (j - slice_bound (s_Ny s) j0)%nat ltac:(rewrite N2; lia)). cbn [Nat.mul Nat.add] in T. rewrite T. f_equal; lia. }
    split; [|split; [intro Q; rewrite Q in EX; discriminate|]].
    + intros _ j' Hj2 Hlt Q. apply ON in Q. lia.
    + apply PRO. rewrite A1. unfold nd_at. cbn [nd_buf nd_ny nd_nx]. f_equal. unfold bidx at 1. cbn [Nat.eqb Nat.mul Nat.add].
      unfold bidx. rewrite KS, N2. destruct (Nat.eqb_spec (slice_bound (s_Ny s) j1 - slice_bound (s_Ny s) j0) 1); lia.
  - destruct (String.eqb_spec (md_normal m) "y") as [EY|EY]; [|discriminate]. injection EL as _ _ <- <-.
    assert (K1: nd_ny L = 1%nat). { rewrite N2. unfold slice_bound in J |- *. destruct (Z.ltb_spec (snd (md_center m)) 0), (Z.ltb_spec (snd (md_center m) + 1) 0); lia. }
    assert (KS: nd_size L = nd_nx L) by (unfold nd_size; rewrite K1; lia).
    exists (i - slice_bound (s_Nx s) i0)%nat. split; [rewrite KS, N1; lia|]. split.
    { assert (T := LA (i - slice_bound (s_Nx s) i0)%nat 0%nat ltac:(rewrite K1; lia)). rewrite K1, Nat.mul_1_r, Nat.add_0_r in T. rewrite T. f_equal; [lia|].
      rewrite N2 in K1. lia. }
    split; [intro Q; rewrite Q in EX; exfalso; apply EX; reflexivity|split].
    + intros _ i' Hi2 Hlt Q. apply ON in Q. lia.
    + apply PRO. rewrite A1. unfold nd_at. cbn [nd_buf nd_ny nd_nx]. f_equal. unfold bidx at 2. cbn [Nat.eqb]. rewrite Nat.mul_1_r, Nat.add_0_r.
      unfold bidx. rewrite KS, N1. destruct (Nat.eqb_spec (slice_bound (s_Nx s) i1 - slice_bound (s_Nx s) i0) 1); lia.
Qed.

(** A mode whose line lies outside of the grid cannot be set up, and nothing changes. *)
Theorem C57_center_outside_raises :
  forall e m s, reachable e s ->
  (md_normal m = "x" /\ (fst (md_center m) < - Z.of_nat (s_Nx s) \/ Z.of_nat (s_Nx s) <= fst (md_center m))%Z) \/
  (md_normal m = "y" /\ (snd (md_center m) < - Z.of_nat (s_Ny s) \/ Z.of_nat (s_Ny s) <= snd (md_center m))%Z) ->
  setup_src e m s = (s, Raise IndexError).
Proof.
  intros e m s HR HH. destruct (reachable_consistent e s HR) as (C1 & C2 & _).
  assert (PI0 : forall N i, (i < - Z.of_nat N \/ Z.of_nat N <= i)%Z -> py_index N i = Raise IndexError).
  { intros N i Hi. unfold py_index. destruct (Z.leb_spec (- Z.of_nat N) i), (Z.ltb_spec i (Z.of_nat N)); cbn [andb]; try reflexivity; lia. }
  unfold setup_src, compute_normalization, norm_structure.
  destruct HH as [[-> HH]|[-> HH]]; cbn [String.eqb Ascii.eqb Bool.eqb]; rewrite PI0 by lia; reflexivity.
Qed.
(** A mode is inserted into a source array of another shape only if its line fits there: a line of at
    least two pixels that would be cut short in the array is refused. *)
Theorem C55_cut_line_refused :
  forall e m s (dest : nd C), md_normal m = "x" ->
  let lo := Z.quot (2 * snd (md_center m) - md_width m) 2 in let hi := Z.quot (2 * snd (md_center m) + md_width m) 2 in
  (0 <= fst (md_center m) < Z.of_nat (nd_nx (s_eps s)))%Z -> (0 <= lo)%Z -> (lo + 2 <= hi)%Z -> (hi <= Z.of_nat (nd_ny (s_eps s)))%Z ->
  (Z.of_nat (nd_ny dest) < hi)%Z ->
  (forall N A o b, exists v, e_eigs e N A o b = Ok v) ->
  insert_mode e m s dest = Raise ValueError.
Proof.
  intros e m s dest HN lo hi Hc H0 H1 H2 H3 HE. unfold insert_mode, line_inds. rewrite HN. cbn [String.eqb Ascii.eqb Bool.eqb]. cbv zeta. fold lo hi. clearbody lo hi.
  set (L := nd_slice (s_eps s) _ _ _ _).
  assert (L1 : nd_nx L = 1%nat /\ nd_ny L = Z.to_nat (hi - lo)).
  { unfold L. cbn [nd_slice nd_nx nd_ny]. rewrite !slice_bound_in by lia. split; lia. }
  destruct L1 as [L1 L2]. unfold nd_size. rewrite L1, L2. destruct (Nat.eqb_spec (1 * Z.to_nat (hi - lo)) 0) as [E|_]; [lia|].
  match goal with |- context[e_eigs e ?N ?A ?o ?b] => destruct (HE N A o b) as [v ->] end. unfold nd_assign. cbn [nd_nx nd_ny].
  assert (SB : (slice_bound (nd_ny dest) hi - slice_bound (nd_ny dest) lo < Z.to_nat (hi - lo))%nat).
  { unfold slice_bound. repeat match goal with |- context[Z.ltb ?a ?b] => destruct (Z.ltb_spec a b) end; lia. }
  replace (1 * Z.to_nat (hi - lo))%nat with (Z.to_nat (hi - lo)) by lia.
  destruct (Nat.eqb_spec (Z.to_nat (hi - lo)) (slice_bound (nd_ny dest) hi - slice_bound (nd_ny dest) lo)) as [E|_]; [lia|].
  destruct (Nat.eqb_spec (Z.to_nat (hi - lo)) 1) as [E|_]; [lia|]. cbn [orb]. rewrite Bool.andb_false_r. reflexivity.
Qed.
Example C55_cut_line_met : exists m s (dest : nd C), md_normal m = "x" /\ nd_nx (s_eps s) = 4%nat /\ nd_ny (s_eps s) = 3%nat /\
  md_center m = (1, 2)%Z /\ md_width m = 2%Z /\ nd_ny dest = 2%nat /\ Z.quot (2 * 2 - 2) 2 = 1%Z /\ Z.quot (2 * 2 + 2) 2 = 3%Z /\
  (forall N A o b, exists v, e_eigs ex_env N A o b = Ok v).
Proof.
  destruct (Simulation ex_omega (mkNd 4 3 (fun _ => 1%R)) 1 (Some [0; 0]%Z) "Ez" 1) as [s|] eqn:E.
  - exists (mkMode 1 "x" (1, 2)%Z 2 1 1), s, (mkNd 4 2 (fun _ => RtoC 0)). destruct (Simulation_fields _ _ _ _ _ _ _ E) as (_ & _ & _ & _ & -> & _).
    repeat split. intros. eexists. reflexivity.
  - exfalso. revert E. unfold Simulation, check_inputs. destruct (Rlt_dec 0 1); [|lra]. destruct (Rlt_dec 0 ex_omega) as [|n]; [discriminate|]. exfalso. apply n, ex_omega_pos.
Qed.
