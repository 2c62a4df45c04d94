(** C79-C84: symmetries of the field solution: translation, exchange of the axes, reflection,
    choice of the length unit, time reversal, scaling of frequency and permittivity. *)
From Coq Require Import Reals Lra Lia List ZArith Arith Bool String.
From Coquelicot Require Import Coquelicot.
From Verif Require Import Base Linear MCore MSim Spec PCore PSim PEx PropsCore PropsSolve PSym.
Import ListNotations.

(* ------------------------------------------------------------------ *)
(** ** the components other than the primary one, pixel by pixel *)
Definition fac1 (s : sim) (av : bool) (k : nat) : C :=
  match s_pol s with
  | PolEz => (- RtoC 1 / Ci / RtoC (s_omega s) / RtoC (MU_0 * s_L0 s))%C
  | PolHz => (RtoC 1 / Ci / RtoC (s_omega s) * / eps_dir AxY av (s_L0 s) (s_Nx s) (s_Ny s) (s_epsC s) k)%C
  end.
Definition fac2 (s : sim) (av : bool) (k : nat) : C :=
  match s_pol s with
  | PolEz => (RtoC 1 / Ci / RtoC (s_omega s) / RtoC (MU_0 * s_L0 s))%C
  | PolHz => (- RtoC 1 / Ci / RtoC (s_omega s) * / eps_dir AxX av (s_L0 s) (s_Nx s) (s_Ny s) (s_epsC s) k)%C
  end.
Definition sdx (s : sim) := fst (dL (s_Nx s) (s_Ny s) (s_xrange s) (s_yrange s)).
Definition sdy (s : sim) := snd (dL (s_Nx s) (s_Ny s) (s_xrange s) (s_yrange s)).
Definition spx (s : sim) (sd : side) := pax sd (s_omega s) (s_L0 s) (s_xrange s) (sdx s) (s_Nx s) (fst (s_NPML s)).
Definition spy (s : sim) (sd : side) := pax sd (s_omega s) (s_L0 s) (s_yrange s) (sdy s) (s_Ny s) (snd (s_NPML s)).
Lemma sd_neq0 s : physical s -> sdx s <> 0%R /\ sdy s <> 0%R.
Proof.
  intros (_ & _ & Hx & Hy & HNx & HNy). unfold sdx, sdy, dL; cbn [fst snd].
  apply lt_INR in HNx, HNy. simpl in HNx, HNy.
  split; apply Rgt_not_eq, Rdiv_lt_0_compat; lra.
Qed.
(** everything a linear solve returns, pixel by pixel *)
Lemma solve_grid e s av src s' a b X : reachable e s -> solver_exact e -> (0 < s_Nx s)%nat -> (0 < s_Ny s)%nat ->
  nonsingular (s_M s) (s_A s) ->
  solve_fields e false av (upd_src src s) = (s', Ok (a, b, X)) ->
  solves (s_M s) (s_A s) X (fun k => (nd_buf src k * Ci * RtoC (s_omega s))%C) /\
  (forall i j, (i < s_Nx s)%nat -> (j < s_Ny s)%nat ->
     a (pix (s_Ny s) i j) = (fac1 s av (pix (s_Ny s) i j) * spy s Bwd (fun c => X (pix (s_Ny s) i c)) j)%C /\
     b (pix (s_Ny s) i j) = (fac2 s av (pix (s_Ny s) i j) * spx s Bwd (fun c => X (pix (s_Ny s) c j)) i)%C).
Proof.
  intros HR He HNx HNy HA H.
  assert (HP := reachable_physical e s HR HNx HNy). destruct (sd_neq0 s HP) as [Hdx Hdy].
  destruct (consistent_A s (reachable_consistent e s HR)) as [EA ED].
  split.
  - exact (solve_fields_solves e false av (upd_src src s) s' a b X He HA H).
  - apply solve_fields_ok in H as (_ & _ & HD & _). cbn [used_eps] in HD.
    change (s_epsC (upd_src src s)) with (s_epsC s) in HD. unfold derived_fields in HD.
    cbn [upd_src s_pol s_omega s_L0 s_Nx s_Ny s_derivs] in HD. change (s_M (upd_src src s)) with (s_M s) in HD.
    intros i j Hi Hj. unfold fac1, fac2, spx, spy, sdx, sdy.
    assert (Hk: (pix (s_Ny s) i j < s_Nx s * s_Ny s)%nat) by (apply flat_lt; assumption).
    assert (Gx := DDx_grid (s_omega s) (s_L0 s) (s_Nx s) (s_Ny s) (s_NPML s) (s_xrange s) (s_yrange s) Hdx Bwd X i j Hi Hj).
    assert (Gy := DDy_grid (s_omega s) (s_L0 s) (s_Nx s) (s_Ny s) (s_NPML s) (s_xrange s) (s_yrange s) Hdy Bwd X i j Hi Hj).
    rewrite ED in HD. cbn [make_derivs Dxb Dyb] in HD. unfold s_M in HD.
    destruct (s_pol s); injection HD as -> ->; unfold vscal.
    + rewrite Gx, Gy. split; reflexivity.
    + unfold spdiags. rewrite !mv_mm, !mv_diag by assumption. rewrite Gx, Gy. split; ring.
Qed.

(* ------------------------------------------------------------------ *)
(** * C79 translation *)
Definition sh (N a i : nat) : nat := ((i + a) mod N)%nat.
Lemma sh_lt N a i : (0 < N)%nat -> (sh N a i < N)%nat.
Proof. intro. apply Nat.mod_upper_bound. lia. Qed.
Lemma next_mod N i : (i < N)%nat -> next N i = ((i + 1) mod N)%nat.
Proof.
  intro Hi. unfold next. destruct (Nat.eqb_spec (S i) N) as [<-|].
  - replace (i + 1)%nat with (S i) by lia. rewrite Nat.mod_same; lia.
  - rewrite Nat.mod_small; lia.
Qed.
Lemma next_sh N a i : (i < N)%nat -> next N (sh N a i) = sh N a (next N i).
Proof.
  intro Hi. rewrite (next_mod N i Hi), next_mod by (apply sh_lt; lia). unfold sh.
  rewrite !Nat.add_mod_idemp_l by lia. f_equal. lia.
Qed.
Lemma prev_sh N a i : (i < N)%nat -> prev N (sh N a i) = sh N a (prev N i).
Proof.
  intro Hi. rewrite <- (next_prev N i Hi) at 1. rewrite <- next_sh by (apply prev_lt; assumption).
  apply prev_next. apply sh_lt; lia.
Qed.
Lemma sh_inv N a i : (i < N)%nat -> sh N (N - a mod N) (sh N a i) = i /\ sh N a (sh N (N - a mod N) i) = i.
Proof.
  intro Hi. unfold sh. assert (Ha: (a mod N < N)%nat) by (apply Nat.mod_upper_bound; lia).
  assert (E: forall x, ((x + a + (N - a mod N)) mod N = x mod N)%nat).
  { intro x. rewrite (Nat.div_mod a N) at 1 by lia.
    replace (x + (N * (a / N) + a mod N) + (N - a mod N))%nat with (x + (1 + a / N) * N)%nat by lia.
    apply Nat.mod_add. lia. }
  split; rewrite Nat.add_mod_idemp_l by lia.
  - rewrite E. apply Nat.mod_small; assumption.
  - replace (i + (N - a mod N) + a)%nat with (i + a + (N - a mod N))%nat by lia. rewrite E. apply Nat.mod_small; assumption.
Qed.
Lemma ax_sh s d N a u u' i : (i < N)%nat -> (forall c, (c < N)%nat -> u' (sh N a c) = u c) ->
  ax s d N u' (sh N a i) = ax s d N u i.
Proof.
  intros Hi H. unfold ax. destruct (Nat.ltb 1 N); [|apply H; assumption].
  destruct s; [rewrite next_sh by assumption | rewrite prev_sh by assumption];
    rewrite !H by (try apply next_lt; try apply prev_lt; assumption); reflexivity.
Qed.
(** two simulations with the same parameters and shape *)
Definition same_grid (s1 s2 : sim) : Prop :=
  s_L0 s2 = s_L0 s1 /\ s_omega s2 = s_omega s1 /\ s_NPML s2 = s_NPML s1 /\ s_pol s2 = s_pol s1 /\
  s_Nx s2 = s_Nx s1 /\ s_Ny s2 = s_Ny s1 /\ s_xrange s2 = s_xrange s1 /\ s_yrange s2 = s_yrange s1.
(** the array [v2] is [v1] moved by (a, b) pixels around the periodic domain *)
Definition moved_by {T} (Nx Ny a b : nat) (v1 v2 : nat -> T) : Prop :=
  forall i j, (i < Nx)%nat -> (j < Ny)%nat -> v2 (pix Ny ((i + a) mod Nx) ((j + b) mod Ny)) = v1 (pix Ny i j).
Lemma eps_dir_sh w av L0 Nx Ny (eps1 eps2 : vec) a b i j : (i < Nx)%nat -> (j < Ny)%nat ->
  moved_by Nx Ny a b eps1 eps2 ->
  eps_dir w av L0 Nx Ny eps2 (pix Ny (sh Nx a i) (sh Ny b j)) = eps_dir w av L0 Nx Ny eps1 (pix Ny i j).
Proof.
  intros Hi Hj H. assert (H': forall i j, (i < Nx)%nat -> (j < Ny)%nat -> eps2 (pix Ny (sh Nx a i) (sh Ny b j)) = eps1 (pix Ny i j)) by exact H.
  assert (0 < Nx)%nat by lia. assert (0 < Ny)%nat by lia.
  destruct w.
  - rewrite !eps_dir_x by (try apply sh_lt; assumption). rewrite prev_sh by assumption.
    rewrite !H' by (try apply prev_lt; assumption). reflexivity.
  - rewrite !eps_dir_y by (try apply sh_lt; assumption). rewrite prev_sh by assumption.
    rewrite !H' by (try apply prev_lt; assumption). reflexivity.
Qed.
Lemma renumber_sh Nx Ny a b : (0 < Nx)%nat -> (0 < Ny)%nat ->
  renumber (Nx * Ny) (Nx * Ny) (fun k => pix Ny (sh Nx a (k / Ny)) (sh Ny b (k mod Ny)))
    (fun k => pix Ny (sh Nx (Nx - a mod Nx) (k / Ny)) (sh Ny (Ny - b mod Ny) (k mod Ny))).
Proof.
  intros HNx HNy. split; intros k Hk; assert (Hi := flat_div_lt _ _ _ Hk); assert (Hj := flat_mod_lt _ _ _ Hk); split.
  1,3: apply flat_lt; apply sh_lt; assumption.
  all: unfold pix; rewrite flat_div, flat_mod by (apply sh_lt; assumption);
    destruct (sh_inv Nx a (k / Ny) Hi) as [E1 E2]; destruct (sh_inv Ny b (k mod Ny) Hj) as [E3 E4];
    rewrite ?E1, ?E2, ?E3, ?E4; apply flat_eta; assumption.
Qed.
Theorem C79_translation :
  forall e s1 s2, reachable e s1 -> reachable e s2 -> solver_exact e ->
  (0 < s_Nx s1)%nat -> (0 < s_Ny s1)%nat -> s_NPML s1 = (0, 0)%nat -> same_grid s1 s2 ->
  nonsingular (s_M s1) (s_A s1) ->
  forall da db src1 src2 av s1' s2' a1 b1 F1 a2 b2 F2,
  let shifted {T} := @moved_by T (s_Nx s1) (s_Ny s1) da db in
  shifted (nd_buf (s_eps s1)) (nd_buf (s_eps s2)) ->
  shifted (nd_buf src1) (nd_buf src2) ->
  solve_fields e false av (upd_src src1 s1) = (s1', Ok (a1, b1, F1)) ->
  solve_fields e false av (upd_src src2 s2) = (s2', Ok (a2, b2, F2)) ->
  shifted F1 F2 /\ shifted a1 a2 /\ shifted b1 b2.
Proof.
  intros e s1 s2 HR1 HR2 He HNx HNy HN0 HG HA da db src1 src2 av s1' s2' a1 b1 F1 a2 b2 F2 shifted Heps Hsrc H1 H2.
  destruct HG as (G1 & G2 & G3 & G4 & G5 & G6 & G7 & G8).
  destruct (consistent_A s1 (reachable_consistent e s1 HR1)) as [EA1 _].
  destruct (consistent_A s2 (reachable_consistent e s2 HR2)) as [EA2 _].
  assert (HP1 := reachable_physical e s1 HR1 HNx HNy). destruct (sd_neq0 s1 HP1) as [Hdx Hdy].
  rewrite G1, G2, G3, G4, G5, G6, G7, G8 in EA2.
  assert (HepsC: moved_by (s_Nx s1) (s_Ny s1) da db (s_epsC s1) (s_epsC s2)).
  { intros i j Hi Hj. unfold s_epsC, cvec. rewrite (Heps i j Hi Hj). reflexivity. }
  set (Nx := s_Nx s1) in *. set (Ny := s_Ny s1) in *.
  set (f := fun k => pix Ny (sh Nx da (k / Ny)) (sh Ny db (k mod Ny))).
  set (g := fun k => pix Ny (sh Nx (Nx - da mod Nx) (k / Ny)) (sh Ny (Ny - db mod Ny) (k mod Ny))).
  assert (HRen: renumber (Nx * Ny) (Nx * Ny) f g) by (apply renumber_sh; assumption).
  assert (Hf: forall i j, (j < Ny)%nat -> f (pix Ny i j) = pix Ny (sh Nx da i) (sh Ny db j)).
  { intros i j Hj. unfold f, pix. rewrite flat_div, flat_mod by assumption. reflexivity. }
  assert (Hg: forall i j, (i < Nx)%nat -> (j < Ny)%nat -> g (pix Ny (sh Nx da i) (sh Ny db j)) = pix Ny i j).
  { intros i j Hi Hj. rewrite <- Hf by assumption. apply HRen. apply flat_lt; assumption. }
  assert (HMv: moved (Nx * Ny) (Nx * Ny) f g (s_A s1) (s_A s2)).
  { intros x k Hk. assert (Hi := flat_div_lt _ _ _ Hk). assert (Hj := flat_mod_lt _ _ _ Hk).
    rewrite <- (flat_eta Ny k HNy). change (k / Ny * Ny + k mod Ny)%nat with (pix Ny (k / Ny) (k mod Ny)).
    set (i := (k / Ny)%nat) in *. set (j := (k mod Ny)%nat) in *.
    rewrite Hf, EA1, EA2, HN0 by assumption.
    rewrite !A_grid by (try apply sh_lt; assumption). unfold fst at 4, snd at 4.
    cbn [fst snd]. rewrite !pax_no_pml.
    assert (Hgx: forall c r, (c < Nx)%nat -> (r < Ny)%nat -> Ax_g (s_L0 s1) Nx Ny (s_pol s1) true (s_epsC s2) (pix Ny (sh Nx da c) (sh Ny db r))
       = Ax_g (s_L0 s1) Nx Ny (s_pol s1) true (s_epsC s1) (pix Ny c r)).
    { intros. unfold Ax_g. destruct (s_pol s1); [reflexivity|]. rewrite (eps_dir_sh AxX true _ Nx Ny (s_epsC s1)) by assumption. reflexivity. }
    assert (Hgy: forall c r, (c < Nx)%nat -> (r < Ny)%nat -> Ay_g (s_L0 s1) Nx Ny (s_pol s1) true (s_epsC s2) (pix Ny (sh Nx da c) (sh Ny db r))
       = Ay_g (s_L0 s1) Nx Ny (s_pol s1) true (s_epsC s1) (pix Ny c r)).
    { intros. unfold Ay_g. destruct (s_pol s1); [reflexivity|]. rewrite (eps_dir_sh AxY true _ Nx Ny (s_epsC s1)) by assumption. reflexivity. }
    f_equal; [f_equal|].
    - apply ax_sh; [assumption|]. intros c Hc. rewrite Hgx by assumption. f_equal. rewrite !pax_no_pml.
      apply ax_sh; [assumption|]. intros c' Hc'. rewrite Hg by assumption. reflexivity.
    - apply ax_sh; [assumption|]. intros c Hc. rewrite Hgy by assumption. f_equal. rewrite !pax_no_pml.
      apply ax_sh; [assumption|]. intros c' Hc'. rewrite Hg by assumption. reflexivity.
    - rewrite Hg by assumption. f_equal. unfold Ad_g. destruct (s_pol s1); [|reflexivity]. do 2 f_equal. apply HepsC; assumption. }
  assert (HNx2: (0 < s_Nx s2)%nat) by (rewrite G5; exact HNx). assert (HNy2: (0 < s_Ny s2)%nat) by (rewrite G6; exact HNy).
  assert (HA2: nonsingular (s_M s2) (s_A s2)).
  { unfold s_M. rewrite G5, G6. exact (moved_nonsingular _ _ _ _ _ _ HRen HMv HA). }
  destruct (solve_grid e s1 av src1 _ _ _ _ HR1 He HNx HNy HA H1) as [S1 D1].
  destruct (solve_grid e s2 av src2 _ _ _ _ HR2 He HNx2 HNy2 HA2 H2) as [S2 D2].
  unfold s_M in S1, S2. rewrite G5, G6 in S2. rewrite G2 in S2. fold Nx Ny in S1, S2.
  assert (HF: moved_by Nx Ny da db F1 F2).
  { intros i j Hi Hj. change ((i + da) mod Nx)%nat with (sh Nx da i). change ((j + db) mod Ny)%nat with (sh Ny db j).
    rewrite <- Hf by assumption.
    apply (moved_solution _ _ f g (s_A s1) (s_A s2) F1 _ F2 _ HRen HMv HA) with (3 := S2) (2 := S1); [|apply flat_lt; assumption].
    intros k Hk. unfold f, sh. cbv beta. rewrite (Hsrc (k / Ny)%nat (k mod Ny)%nat (flat_div_lt _ _ _ Hk) (flat_mod_lt _ _ _ Hk)).
    unfold pix. rewrite flat_eta by assumption. reflexivity. }
  rewrite G5, G6 in D2. fold Nx Ny in D1, D2.
  split; [exact HF|]. split; intros i j Hi Hj;
    destruct (D1 i j Hi Hj) as [Da1 Db1]; destruct (D2 (sh Nx da i) (sh Ny db j) (sh_lt _ _ _ HNx) (sh_lt _ _ _ HNy)) as [Da2 Db2];
    change ((i + da) mod Nx)%nat with (sh Nx da i); change ((j + db) mod Ny)%nat with (sh Ny db j).
  - rewrite Da1, Da2. unfold fac1, spy, sdy. rewrite G1, G2, G3, G4, G5, G6, G7, G8, HN0. fold Nx Ny. f_equal.
    + destruct (s_pol s1); [reflexivity|]. rewrite (eps_dir_sh AxY av _ Nx Ny (s_epsC s1)) by assumption. reflexivity.
    + cbn [snd]. rewrite !pax_no_pml. apply ax_sh; [assumption|]. intros c Hc. apply HF; assumption.
  - rewrite Db1, Db2. unfold fac2, spx, sdx. rewrite G1, G2, G3, G4, G5, G6, G7, G8, HN0. fold Nx Ny. f_equal.
    + destruct (s_pol s1); [reflexivity|]. rewrite (eps_dir_sh AxX av _ Nx Ny (s_epsC s1)) by assumption. reflexivity.
    + cbn [fst]. rewrite !pax_no_pml. apply ax_sh; [assumption|]. intros c Hc. apply HF; assumption.
Qed.

(* ------------------------------------------------------------------ *)
(** * C80 exchange of the two axes *)
(** the same simulation with x and y exchanged, PML layers included *)
Definition axes_exchanged (s1 s2 : sim) : Prop :=
  s_L0 s2 = s_L0 s1 /\ s_omega s2 = s_omega s1 /\ s_NPML s2 = (snd (s_NPML s1), fst (s_NPML s1)) /\ s_pol s2 = s_pol s1 /\
  s_Nx s2 = s_Ny s1 /\ s_Ny s2 = s_Nx s1 /\ s_xrange s2 = s_yrange s1 /\ s_yrange s2 = s_xrange s1.
(** [v2] of shape (Ny, Nx) is the transpose of [v1] of shape (Nx, Ny) *)
Definition transpose_of {T} (Nx Ny : nat) (v1 v2 : nat -> T) : Prop :=
  forall i j, (i < Nx)%nat -> (j < Ny)%nat -> v2 (pix Nx j i) = v1 (pix Ny i j).
Lemma eps_dir_swap_x av L0 Nx Ny (eps1 eps2 : vec) i j : (i < Nx)%nat -> (j < Ny)%nat ->
  transpose_of Nx Ny eps1 eps2 ->
  eps_dir AxX av L0 Ny Nx eps2 (pix Nx j i) = eps_dir AxY av L0 Nx Ny eps1 (pix Ny i j).
Proof.
  intros Hi Hj H. rewrite eps_dir_x, eps_dir_y by assumption.
  rewrite !H by (try apply prev_lt; assumption). reflexivity.
Qed.
Lemma eps_dir_swap_y av L0 Nx Ny (eps1 eps2 : vec) i j : (i < Nx)%nat -> (j < Ny)%nat ->
  transpose_of Nx Ny eps1 eps2 ->
  eps_dir AxY av L0 Ny Nx eps2 (pix Nx j i) = eps_dir AxX av L0 Nx Ny eps1 (pix Ny i j).
Proof.
  intros Hi Hj H. rewrite eps_dir_x, eps_dir_y by assumption.
  rewrite !H by (try apply prev_lt; assumption). reflexivity.
Qed.
Lemma renumber_swap Nx Ny : renumber (Nx * Ny) (Ny * Nx) (fun k => pix Nx (k mod Ny) (k / Ny)) (fun q => pix Ny (q mod Nx) (q / Nx)).
Proof.
  split; intros k Hk; assert (Hi := flat_div_lt _ _ _ Hk); assert (Hj := flat_mod_lt _ _ _ Hk); split.
  1,3: apply flat_lt; assumption.
  all: unfold pix; rewrite flat_div, flat_mod by assumption; apply flat_eta; lia.
Qed.
Theorem C80_axes_exchanged :
  forall e s1 s2, reachable e s1 -> reachable e s2 -> solver_exact e ->
  (0 < s_Nx s1)%nat -> (0 < s_Ny s1)%nat -> axes_exchanged s1 s2 ->
  nonsingular (s_M s1) (s_A s1) ->
  forall src1 src2 av s1' s2' a1 b1 F1 a2 b2 F2,
  let transposed {T} := @transpose_of T (s_Nx s1) (s_Ny s1) in
  transposed (nd_buf (s_eps s1)) (nd_buf (s_eps s2)) ->
  transposed (nd_buf src1) (nd_buf src2) ->
  solve_fields e false av (upd_src src1 s1) = (s1', Ok (a1, b1, F1)) ->
  solve_fields e false av (upd_src src2 s2) = (s2', Ok (a2, b2, F2)) ->
  transposed F1 F2 /\ transposed (fun k => - b1 k)%C a2 /\ transposed (fun k => - a1 k)%C b2.
Proof.
  intros e s1 s2 HR1 HR2 He HNx HNy HG HA src1 src2 av s1' s2' a1 b1 F1 a2 b2 F2 transposed Heps Hsrc H1 H2.
  destruct HG as (G1 & G2 & G3 & G4 & G5 & G6 & G7 & G8).
  destruct (consistent_A s1 (reachable_consistent e s1 HR1)) as [EA1 _].
  destruct (consistent_A s2 (reachable_consistent e s2 HR2)) as [EA2 _].
  assert (HP1 := reachable_physical e s1 HR1 HNx HNy). destruct (sd_neq0 s1 HP1) as [Hdx Hdy].
  rewrite G1, G2, G3, G4, G5, G6, G7, G8 in EA2.
  assert (HepsC: transpose_of (s_Nx s1) (s_Ny s1) (s_epsC s1) (s_epsC s2)).
  { intros i j Hi Hj. unfold s_epsC, cvec. rewrite (Heps i j Hi Hj). reflexivity. }
  unfold sdx, sdy, dL in Hdx, Hdy; cbn [fst snd] in Hdx, Hdy.
  set (Nx := s_Nx s1) in *. set (Ny := s_Ny s1) in *.
  set (f := fun k => pix Nx (k mod Ny) (k / Ny)). set (g := fun q => pix Ny (q mod Nx) (q / Nx)).
  assert (HRen: renumber (Nx * Ny) (Ny * Nx) f g) by apply renumber_swap.
  assert (Hf: forall i j, (j < Ny)%nat -> f (pix Ny i j) = pix Nx j i).
  { intros i j Hj. unfold f, pix. rewrite flat_div, flat_mod by assumption. reflexivity. }
  assert (Hg: forall i j, (i < Nx)%nat -> g (pix Nx j i) = pix Ny i j).
  { intros i j Hi. unfold g, pix. rewrite flat_div, flat_mod by assumption. reflexivity. }
  assert (HMv: moved (Nx * Ny) (Ny * Nx) f g (s_A s1) (s_A s2)).
  { intros x k Hk. assert (Hi := flat_div_lt _ _ _ Hk). assert (Hj := flat_mod_lt _ _ _ Hk).
    rewrite <- (flat_eta Ny k HNy). change (k / Ny * Ny + k mod Ny)%nat with (pix Ny (k / Ny) (k mod Ny)).
    set (i := (k / Ny)%nat) in *. set (j := (k mod Ny)%nat) in *.
    rewrite Hf, EA1, EA2 by assumption.
    rewrite !A_grid by assumption. unfold dL. cbn [fst snd].
    rewrite (Cplus_comm (pax Fwd (s_omega s1) (s_L0 s1) (s_xrange s1) _ _ _ _ _)).
    f_equal; [f_equal|].
    - apply pax_ext; [assumption|]. intros c Hc. f_equal.
      + unfold Ax_g, Ay_g. destruct (s_pol s1); [reflexivity|]. rewrite (eps_dir_swap_x true _ Nx Ny (s_epsC s1)) by assumption. reflexivity.
      + apply pax_ext; [assumption|]. intros c' Hc'. rewrite Hg by assumption. reflexivity.
    - apply pax_ext; [assumption|]. intros c Hc. f_equal.
      + unfold Ax_g, Ay_g. destruct (s_pol s1); [reflexivity|]. rewrite (eps_dir_swap_y true _ Nx Ny (s_epsC s1)) by assumption. reflexivity.
      + apply pax_ext; [assumption|]. intros c' Hc'. rewrite Hg by assumption. reflexivity.
    - rewrite Hg by assumption. f_equal. unfold Ad_g. destruct (s_pol s1); [|reflexivity]. do 2 f_equal. apply HepsC; assumption. }
  assert (HNx2: (0 < s_Nx s2)%nat) by (rewrite G5; exact HNy). assert (HNy2: (0 < s_Ny s2)%nat) by (rewrite G6; exact HNx).
  assert (HA2: nonsingular (s_M s2) (s_A s2)).
  { unfold s_M. rewrite G5, G6. exact (moved_nonsingular _ _ _ _ _ _ HRen HMv HA). }
  destruct (solve_grid e s1 av src1 _ _ _ _ HR1 He HNx HNy HA H1) as [S1 D1].
  destruct (solve_grid e s2 av src2 _ _ _ _ HR2 He HNx2 HNy2 HA2 H2) as [S2 D2].
  unfold s_M in S1, S2. rewrite G5, G6 in S2. rewrite G2 in S2. fold Nx Ny in S1, S2.
  assert (HF: transpose_of Nx Ny F1 F2).
  { intros i j Hi Hj. rewrite <- Hf by assumption.
    apply (moved_solution _ _ f g (s_A s1) (s_A s2) F1 _ F2 _ HRen HMv HA) with (3 := S2) (2 := S1); [|apply flat_lt; assumption].
    intros k Hk. unfold f. cbv beta. rewrite (Hsrc (k / Ny)%nat (k mod Ny)%nat (flat_div_lt _ _ _ Hk) (flat_mod_lt _ _ _ Hk)).
    unfold pix. rewrite flat_eta by assumption. reflexivity. }
  rewrite G5, G6 in D2. fold Nx Ny in D1, D2.
  split; [exact HF|]. split; intros i j Hi Hj;
    destruct (D1 i j Hi Hj) as [Da1 Db1]; destruct (D2 j i Hj Hi) as [Da2 Db2].
  - rewrite Db1, Da2. unfold fac1, fac2, spx, spy, sdx, sdy. rewrite G1, G2, G3, G4, G5, G6, G7, G8. fold Nx Ny.
    unfold dL. cbn [fst snd].
    rewrite (pax_ext _ _ _ _ _ Nx _ (fun c => F2 (pix Nx j c)) (fun c => F1 (pix Ny c j))) by (try assumption; intros; apply HF; assumption).
    destruct (s_pol s1); [unfold Cdiv; ring|]. rewrite (eps_dir_swap_y av _ Nx Ny (s_epsC s1)) by assumption. unfold Cdiv; ring.
  - rewrite Da1, Db2. unfold fac1, fac2, spx, spy, sdx, sdy. rewrite G1, G2, G3, G4, G5, G6, G7, G8. fold Nx Ny.
    unfold dL. cbn [fst snd].
    rewrite (pax_ext _ _ _ _ _ Ny _ (fun c => F2 (pix Nx c i)) (fun c => F1 (pix Ny i c))) by (try assumption; intros; apply HF; assumption).
    destruct (s_pol s1); [unfold Cdiv; ring|]. rewrite (eps_dir_swap_x av _ Nx Ny (s_epsC s1)) by assumption. unfold Cdiv; ring.
Qed.

(* ------------------------------------------------------------------ *)
(** * C81 reflection *)
Definition mir (N i : nat) : nat := (N - 1 - i)%nat.
Lemma mir_lt N i : (0 < N)%nat -> (mir N i < N)%nat.
Proof. unfold mir. lia. Qed.
Lemma mir_mir N i : (i < N)%nat -> mir N (mir N i) = i.
Proof. unfold mir. lia. Qed.
Lemma next_mir N i : (i < N)%nat -> next N (mir N i) = mir N (prev N i).
Proof.
  intro Hi. unfold next, mir. destruct i as [|i]; cbn [prev].
  - destruct (Nat.eqb_spec (S (N - 1 - 0)) N); lia.
  - destruct (Nat.eqb_spec (S (N - 1 - S i)) N); lia.
Qed.
Lemma prev_mir N i : (i < N)%nat -> prev N (mir N i) = mir N (next N i).
Proof.
  intro Hi. unfold next, mir. destruct (Nat.eqb_spec (S i) N).
  - replace (N - 1 - i)%nat with 0%nat by lia. cbn [prev]. lia.
  - destruct (N - 1 - i)%nat eqn:E; cbn [prev]; lia.
Qed.
Lemma ax_mir_b d N u u' i : (2 <= N)%nat -> (i < N)%nat -> (forall c, (c < N)%nat -> u' (mir N c) = u c) ->
  ax Bwd d N u' (mir N i) = (- ax Bwd d N u (next N i))%C.
Proof.
  intros HN Hi H. unfold ax. rewrite ltb_true by assumption. rewrite prev_mir, prev_next by assumption.
  rewrite !H by (try apply next_lt; assumption). unfold Cdiv. ring.
Qed.
Lemma ax_mir2 d N g g' u u' i : (i < N)%nat ->
  (forall c, (c < N)%nat -> g' (mir N c) = g (next N c)) -> (forall c, (c < N)%nat -> u' (mir N c) = u c) ->
  ax Fwd d N (fun c => g' c * ax Bwd d N u' c)%C (mir N i) = ax Fwd d N (fun c => g c * ax Bwd d N u c)%C i.
Proof.
  intros Hi Hg Hu. destruct (Nat.ltb_spec 1 N) as [HN|HN].
  - unfold ax at 1 3. rewrite ltb_true by lia.
    rewrite next_mir by assumption. rewrite !ax_mir_b with (u := u) by (try apply prev_lt; try lia; assumption).
    rewrite !Hg by (try apply prev_lt; assumption). rewrite next_prev by assumption. unfold Cdiv. ring.
  - assert (N = 1%nat) by lia. subst N. assert (i = 0%nat) by lia. subst i. unfold ax. cbn [Nat.ltb Nat.leb].
    rewrite Hg, Hu by lia. reflexivity.
Qed.
Lemma ax_rel s d N u u' i : (i < N)%nat -> (forall c, (c < N)%nat -> u' c = u c) -> ax s d N u' i = ax s d N u i.
Proof. intros. apply ax_ext; assumption. Qed.
(** [v2] is [v1] reflected in x / in y *)
Definition mirrored_x {T} (Nx Ny : nat) (v1 v2 : nat -> T) : Prop :=
  forall i j, (i < Nx)%nat -> (j < Ny)%nat -> v2 (pix Ny (Nx - 1 - i) j) = v1 (pix Ny i j).
Definition mirrored_y {T} (Nx Ny : nat) (v1 v2 : nat -> T) : Prop :=
  forall i j, (i < Nx)%nat -> (j < Ny)%nat -> v2 (pix Ny i (Ny - 1 - j)) = v1 (pix Ny i j).
Lemma eps_dir_mx_x L0 Nx Ny (eps1 eps2 : vec) i j : (i < Nx)%nat -> (j < Ny)%nat -> mirrored_x Nx Ny eps1 eps2 ->
  eps_dir AxX true L0 Nx Ny eps2 (pix Ny (mir Nx i) j) = eps_dir AxX true L0 Nx Ny eps1 (pix Ny (next Nx i) j).
Proof.
  intros Hi Hj H. assert (H': forall i j, (i < Nx)%nat -> (j < Ny)%nat -> eps2 (pix Ny (mir Nx i) j) = eps1 (pix Ny i j)) by exact H.
  rewrite !eps_dir_x by (try apply mir_lt; try apply next_lt; (assumption || lia)).
  rewrite prev_mir, prev_next by assumption. rewrite !H' by (try apply next_lt; assumption). f_equal. ring.
Qed.
Lemma eps_dir_mx_y av L0 Nx Ny (eps1 eps2 : vec) i j : (i < Nx)%nat -> (j < Ny)%nat -> mirrored_x Nx Ny eps1 eps2 ->
  eps_dir AxY av L0 Nx Ny eps2 (pix Ny (mir Nx i) j) = eps_dir AxY av L0 Nx Ny eps1 (pix Ny i j).
Proof.
  intros Hi Hj H. assert (H': forall i j, (i < Nx)%nat -> (j < Ny)%nat -> eps2 (pix Ny (mir Nx i) j) = eps1 (pix Ny i j)) by exact H.
  rewrite !eps_dir_y by (try apply mir_lt; (assumption || lia)). rewrite !H' by (try apply prev_lt; assumption). reflexivity.
Qed.
Lemma eps_dir_my_y L0 Nx Ny (eps1 eps2 : vec) i j : (i < Nx)%nat -> (j < Ny)%nat -> mirrored_y Nx Ny eps1 eps2 ->
  eps_dir AxY true L0 Nx Ny eps2 (pix Ny i (mir Ny j)) = eps_dir AxY true L0 Nx Ny eps1 (pix Ny i (next Ny j)).
Proof.
  intros Hi Hj H. assert (H': forall i j, (i < Nx)%nat -> (j < Ny)%nat -> eps2 (pix Ny i (mir Ny j)) = eps1 (pix Ny i j)) by exact H.
  rewrite !eps_dir_y by (try apply mir_lt; try apply next_lt; (assumption || lia)).
  rewrite prev_mir, prev_next by assumption. rewrite !H' by (try apply next_lt; assumption). f_equal. ring.
Qed.
Lemma eps_dir_my_x av L0 Nx Ny (eps1 eps2 : vec) i j : (i < Nx)%nat -> (j < Ny)%nat -> mirrored_y Nx Ny eps1 eps2 ->
  eps_dir AxX av L0 Nx Ny eps2 (pix Ny i (mir Ny j)) = eps_dir AxX av L0 Nx Ny eps1 (pix Ny i j).
Proof.
  intros Hi Hj H. assert (H': forall i j, (i < Nx)%nat -> (j < Ny)%nat -> eps2 (pix Ny i (mir Ny j)) = eps1 (pix Ny i j)) by exact H.
  rewrite !eps_dir_x by (try apply mir_lt; (assumption || lia)). rewrite !H' by (try apply prev_lt; assumption). reflexivity.
Qed.
Lemma renumber_mx Nx Ny : (0 < Nx)%nat -> (0 < Ny)%nat -> let f := fun k => pix Ny (mir Nx (k / Ny)) (k mod Ny) in renumber (Nx * Ny) (Nx * Ny) f f.
Proof.
  intros HNx HNy f. split; intros k Hk; assert (Hi := flat_div_lt _ _ _ Hk); assert (Hj := flat_mod_lt _ _ _ Hk); split.
  1,3: apply flat_lt; [apply mir_lt|]; assumption.
  all: unfold f, pix; rewrite flat_div, flat_mod by assumption; rewrite mir_mir by assumption; apply flat_eta; lia.
Qed.
Lemma renumber_my Nx Ny : (0 < Nx)%nat -> (0 < Ny)%nat -> let f := fun k => pix Ny (k / Ny) (mir Ny (k mod Ny)) in renumber (Nx * Ny) (Nx * Ny) f f.
Proof.
  intros HNx HNy f. split; intros k Hk; assert (Hi := flat_div_lt _ _ _ Hk); assert (Hj := flat_mod_lt _ _ _ Hk); split.
  1,3: apply flat_lt; [assumption|apply mir_lt; assumption].
  all: unfold f, pix; rewrite flat_div, flat_mod by (apply mir_lt; assumption); rewrite mir_mir by assumption; apply flat_eta; lia.
Qed.
(** The primary field is reflected, the component along the axis of reflection of the other
    field as well, and the transverse one, which lives between two pixels of the axis, changes
    sign and goes to the reflected edge. *)
Lemma reflection_x e s1 s2 : reachable e s1 -> reachable e s2 -> solver_exact e ->
  (0 < s_Nx s1)%nat -> (0 < s_Ny s1)%nat -> s_NPML s1 = (0, 0)%nat -> same_grid s1 s2 ->
  nonsingular (s_M s1) (s_A s1) ->
  forall src1 src2 av s1' s2' a1 b1 F1 a2 b2 F2,
  let Nx := s_Nx s1 in let Ny := s_Ny s1 in
  mirrored_x Nx Ny (nd_buf (s_eps s1)) (nd_buf (s_eps s2)) ->
  mirrored_x Nx Ny (nd_buf src1) (nd_buf src2) ->
  solve_fields e false av (upd_src src1 s1) = (s1', Ok (a1, b1, F1)) ->
  solve_fields e false av (upd_src src2 s2) = (s2', Ok (a2, b2, F2)) ->
  mirrored_x Nx Ny F1 F2 /\ mirrored_x Nx Ny a1 a2 /\
  (forall i j, (2 <= Nx)%nat -> (i < Nx)%nat -> (j < Ny)%nat ->
     b2 (pix Ny (mir Nx i) j) = (- (fac2 s2 av (pix Ny (mir Nx i) j) * spx s1 Bwd (fun c => F1 (pix Ny c j)) (next Nx i)))%C /\
     b1 (pix Ny (next Nx i) j) = (fac2 s1 av (pix Ny (next Nx i) j) * spx s1 Bwd (fun c => F1 (pix Ny c j)) (next Nx i))%C).
Proof.
  intros HR1 HR2 He HNx HNy HN0 HG HA src1 src2 av s1' s2' a1 b1 F1 a2 b2 F2 Nx Ny Heps Hsrc H1 H2.
  destruct HG as (G1 & G2 & G3 & G4 & G5 & G6 & G7 & G8).
  destruct (consistent_A s1 (reachable_consistent e s1 HR1)) as [EA1 _].
  destruct (consistent_A s2 (reachable_consistent e s2 HR2)) as [EA2 _].
  assert (HP1 := reachable_physical e s1 HR1 HNx HNy). destruct (sd_neq0 s1 HP1) as [Hdx Hdy].
  rewrite G1, G2, G3, G4, G5, G6, G7, G8 in EA2. fold Nx Ny in EA1, EA2, HNx, HNy.
  assert (HepsC: mirrored_x Nx Ny (s_epsC s1) (s_epsC s2)).
  { intros i j Hi Hj. unfold s_epsC, cvec. rewrite (Heps i j Hi Hj). reflexivity. }
  set (f := fun k => pix Ny (mir Nx (k / Ny)) (k mod Ny)).
  assert (HRen: renumber (Nx * Ny) (Nx * Ny) f f) by (apply renumber_mx; assumption).
  assert (Hf: forall i j, (j < Ny)%nat -> f (pix Ny i j) = pix Ny (mir Nx i) j).
  { intros i j Hj. unfold f, pix. rewrite flat_div, flat_mod by assumption. reflexivity. }
  assert (Hg: forall i j, (i < Nx)%nat -> (j < Ny)%nat -> f (pix Ny (mir Nx i) j) = pix Ny i j).
  { intros i j Hi Hj. rewrite Hf by assumption. rewrite mir_mir by assumption. reflexivity. }
  assert (HMv: moved (Nx * Ny) (Nx * Ny) f f (s_A s1) (s_A s2)).
  { intros x k Hk. assert (Hi := flat_div_lt _ _ _ Hk). assert (Hj := flat_mod_lt _ _ _ Hk).
    rewrite <- (flat_eta Ny k HNy). change (k / Ny * Ny + k mod Ny)%nat with (pix Ny (k / Ny) (k mod Ny)).
    set (i := (k / Ny)%nat) in *. set (j := (k mod Ny)%nat) in *.
    rewrite Hf, EA1, EA2, HN0 by assumption.
    rewrite !A_grid by (try apply mir_lt; assumption).
    cbn [fst snd]. rewrite !pax_no_pml.
    f_equal; [f_equal|].
    - etransitivity; [apply ax_ext; [apply mir_lt; assumption|]; intros c Hc; rewrite pax_no_pml; reflexivity|].
      etransitivity; [|symmetry; apply ax_ext; [assumption|]; intros c Hc; rewrite pax_no_pml; reflexivity].
      apply (ax_mir2 _ Nx (fun c => Ax_g (s_L0 s1) Nx Ny (s_pol s1) true (s_epsC s1) (pix Ny c j))); [assumption| |].
      + intros c Hc. unfold Ax_g. destruct (s_pol s1); [reflexivity|]. rewrite (eps_dir_mx_x _ Nx Ny (s_epsC s1)) by assumption. reflexivity.
      + intros c Hc. rewrite Hg by assumption. reflexivity.
    - apply ax_rel; [assumption|]. intros c Hc. f_equal.
      + unfold Ay_g. destruct (s_pol s1); [reflexivity|]. rewrite (eps_dir_mx_y true _ Nx Ny (s_epsC s1)) by assumption. reflexivity.
      + rewrite !pax_no_pml. apply ax_rel; [assumption|]. intros c' Hc'. rewrite Hg by assumption. reflexivity.
    - rewrite Hg by assumption. f_equal. unfold Ad_g. destruct (s_pol s1); [|reflexivity]. do 2 f_equal. apply HepsC; assumption. }
  assert (HNx2: (0 < s_Nx s2)%nat) by (rewrite G5; exact HNx). assert (HNy2: (0 < s_Ny s2)%nat) by (rewrite G6; exact HNy).
  assert (HA2: nonsingular (s_M s2) (s_A s2)).
  { unfold s_M. rewrite G5, G6. exact (moved_nonsingular _ _ _ _ _ _ HRen HMv HA). }
  destruct (solve_grid e s1 av src1 _ _ _ _ HR1 He HNx HNy HA H1) as [S1 D1].
  destruct (solve_grid e s2 av src2 _ _ _ _ HR2 He HNx2 HNy2 HA2 H2) as [S2 D2].
  unfold s_M in S1, S2. rewrite G5, G6 in S2. rewrite G2 in S2. fold Nx Ny in S1, S2.
  assert (HF: forall i j, (i < Nx)%nat -> (j < Ny)%nat -> F2 (pix Ny (mir Nx i) j) = F1 (pix Ny i j)).
  { intros i j Hi Hj. rewrite <- Hf by assumption.
    apply (moved_solution _ _ f f (s_A s1) (s_A s2) F1 _ F2 _ HRen HMv HA) with (3 := S2) (2 := S1); [|apply flat_lt; assumption].
    intros k Hk. unfold f, mir. cbv beta. rewrite (Hsrc (k / Ny)%nat (k mod Ny)%nat (flat_div_lt _ _ _ Hk) (flat_mod_lt _ _ _ Hk)).
    unfold pix. rewrite flat_eta by assumption. reflexivity. }
  rewrite G5, G6 in D2. fold Nx Ny in D1, D2.
  split; [exact HF|]. split.
  - intros i j Hi Hj. change (Nx - 1 - i)%nat with (mir Nx i).
    destruct (D1 i j Hi Hj) as [Da1 Db1]; destruct (D2 (mir Nx i) j (mir_lt _ _ HNx) Hj) as [Da2 Db2].
    rewrite Da1, Da2. unfold fac1, spy, sdy. rewrite G1, G2, G3, G4, G5, G6, G7, G8, HN0. fold Nx Ny. f_equal.
    + destruct (s_pol s1); [reflexivity|]. rewrite (eps_dir_mx_y av _ Nx Ny (s_epsC s1)) by assumption. reflexivity.
    + cbn [snd]. rewrite !pax_no_pml. apply ax_rel; [assumption|]. intros c Hc. apply HF; assumption.
  - intros i j HN Hi Hj. destruct (D1 (next Nx i) j (next_lt _ _ Hi) Hj) as [Da1 Db1]; destruct (D2 (mir Nx i) j (mir_lt _ _ HNx) Hj) as [Da2 Db2].
    split; [|exact Db1]. rewrite Db2. transitivity (fac2 s2 av (pix Ny (mir Nx i) j) * (- spx s1 Bwd (fun c => F1 (pix Ny c j)) (next Nx i)))%C; [|ring]. f_equal. unfold spx, sdx. rewrite G1, G2, G3, G5, G6, G7, G8, HN0. fold Nx Ny.
    cbn [fst]. rewrite !pax_no_pml. apply ax_mir_b; try assumption. intros c Hc. apply HF; assumption.
Qed.
Lemma reflection_y e s1 s2 : reachable e s1 -> reachable e s2 -> solver_exact e ->
  (0 < s_Nx s1)%nat -> (0 < s_Ny s1)%nat -> s_NPML s1 = (0, 0)%nat -> same_grid s1 s2 ->
  nonsingular (s_M s1) (s_A s1) ->
  forall src1 src2 av s1' s2' a1 b1 F1 a2 b2 F2,
  let Nx := s_Nx s1 in let Ny := s_Ny s1 in
  mirrored_y Nx Ny (nd_buf (s_eps s1)) (nd_buf (s_eps s2)) ->
  mirrored_y Nx Ny (nd_buf src1) (nd_buf src2) ->
  solve_fields e false av (upd_src src1 s1) = (s1', Ok (a1, b1, F1)) ->
  solve_fields e false av (upd_src src2 s2) = (s2', Ok (a2, b2, F2)) ->
  mirrored_y Nx Ny F1 F2 /\ mirrored_y Nx Ny b1 b2 /\
  (forall i j, (2 <= Ny)%nat -> (i < Nx)%nat -> (j < Ny)%nat ->
     a2 (pix Ny i (mir Ny j)) = (- (fac1 s2 av (pix Ny i (mir Ny j)) * spy s1 Bwd (fun c => F1 (pix Ny i c)) (next Ny j)))%C /\
     a1 (pix Ny i (next Ny j)) = (fac1 s1 av (pix Ny i (next Ny j)) * spy s1 Bwd (fun c => F1 (pix Ny i c)) (next Ny j))%C).
Proof.
  intros HR1 HR2 He HNx HNy HN0 HG HA src1 src2 av s1' s2' a1 b1 F1 a2 b2 F2 Nx Ny Heps Hsrc H1 H2.
  destruct HG as (G1 & G2 & G3 & G4 & G5 & G6 & G7 & G8).
  destruct (consistent_A s1 (reachable_consistent e s1 HR1)) as [EA1 _].
  destruct (consistent_A s2 (reachable_consistent e s2 HR2)) as [EA2 _].
  assert (HP1 := reachable_physical e s1 HR1 HNx HNy). destruct (sd_neq0 s1 HP1) as [Hdx Hdy].
  rewrite G1, G2, G3, G4, G5, G6, G7, G8 in EA2. fold Nx Ny in EA1, EA2, HNx, HNy.
  assert (HepsC: mirrored_y Nx Ny (s_epsC s1) (s_epsC s2)).
  { intros i j Hi Hj. unfold s_epsC, cvec. rewrite (Heps i j Hi Hj). reflexivity. }
  set (f := fun k => pix Ny (k / Ny) (mir Ny (k mod Ny))).
  assert (HRen: renumber (Nx * Ny) (Nx * Ny) f f) by (apply renumber_my; assumption).
  assert (Hf: forall i j, (j < Ny)%nat -> f (pix Ny i j) = pix Ny i (mir Ny j)).
  { intros i j Hj. unfold f, pix. rewrite flat_div, flat_mod by assumption. reflexivity. }
  assert (Hg: forall i j, (i < Nx)%nat -> (j < Ny)%nat -> f (pix Ny i (mir Ny j)) = pix Ny i j).
  { intros i j Hi Hj. rewrite Hf by (apply mir_lt; assumption). rewrite mir_mir by assumption. reflexivity. }
  assert (HMv: moved (Nx * Ny) (Nx * Ny) f f (s_A s1) (s_A s2)).
  { intros x k Hk. assert (Hi := flat_div_lt _ _ _ Hk). assert (Hj := flat_mod_lt _ _ _ Hk).
    rewrite <- (flat_eta Ny k HNy). change (k / Ny * Ny + k mod Ny)%nat with (pix Ny (k / Ny) (k mod Ny)).
    set (i := (k / Ny)%nat) in *. set (j := (k mod Ny)%nat) in *.
    rewrite Hf, EA1, EA2, HN0 by assumption.
    rewrite !A_grid by (try apply mir_lt; assumption).
    cbn [fst snd]. rewrite !pax_no_pml.
    f_equal; [f_equal|].
    - apply ax_rel; [assumption|]. intros c Hc. f_equal.
      + unfold Ax_g. destruct (s_pol s1); [reflexivity|]. rewrite (eps_dir_my_x true _ Nx Ny (s_epsC s1)) by assumption. reflexivity.
      + rewrite !pax_no_pml. apply ax_rel; [assumption|]. intros c' Hc'. rewrite Hg by assumption. reflexivity.
    - etransitivity; [apply ax_ext; [apply mir_lt; assumption|]; intros c Hc; rewrite pax_no_pml; reflexivity|].
      etransitivity; [|symmetry; apply ax_ext; [assumption|]; intros c Hc; rewrite pax_no_pml; reflexivity].
      apply (ax_mir2 _ Ny (fun c => Ay_g (s_L0 s1) Nx Ny (s_pol s1) true (s_epsC s1) (pix Ny i c))); [assumption| |].
      + intros c Hc. unfold Ay_g. destruct (s_pol s1); [reflexivity|]. rewrite (eps_dir_my_y _ Nx Ny (s_epsC s1)) by assumption. reflexivity.
      + intros c Hc. rewrite Hg by assumption. reflexivity.
    - rewrite Hg by assumption. f_equal. unfold Ad_g. destruct (s_pol s1); [|reflexivity]. do 2 f_equal. apply HepsC; assumption. }
  assert (HNx2: (0 < s_Nx s2)%nat) by (rewrite G5; exact HNx). assert (HNy2: (0 < s_Ny s2)%nat) by (rewrite G6; exact HNy).
  assert (HA2: nonsingular (s_M s2) (s_A s2)).
  { unfold s_M. rewrite G5, G6. exact (moved_nonsingular _ _ _ _ _ _ HRen HMv HA). }
  destruct (solve_grid e s1 av src1 _ _ _ _ HR1 He HNx HNy HA H1) as [S1 D1].
  destruct (solve_grid e s2 av src2 _ _ _ _ HR2 He HNx2 HNy2 HA2 H2) as [S2 D2].
  unfold s_M in S1, S2. rewrite G5, G6 in S2. rewrite G2 in S2. fold Nx Ny in S1, S2.
  assert (HF: forall i j, (i < Nx)%nat -> (j < Ny)%nat -> F2 (pix Ny i (mir Ny j)) = F1 (pix Ny i j)).
  { intros i j Hi Hj. rewrite <- Hf by assumption.
    apply (moved_solution _ _ f f (s_A s1) (s_A s2) F1 _ F2 _ HRen HMv HA) with (3 := S2) (2 := S1); [|apply flat_lt; assumption].
    intros k Hk. unfold f, mir. cbv beta. rewrite (Hsrc (k / Ny)%nat (k mod Ny)%nat (flat_div_lt _ _ _ Hk) (flat_mod_lt _ _ _ Hk)).
    unfold pix. rewrite flat_eta by assumption. reflexivity. }
  rewrite G5, G6 in D2. fold Nx Ny in D1, D2.
  split; [exact HF|]. split.
  - intros i j Hi Hj. change (Ny - 1 - j)%nat with (mir Ny j).
    destruct (D1 i j Hi Hj) as [Da1 Db1]; destruct (D2 i (mir Ny j) Hi (mir_lt _ _ HNy)) as [Da2 Db2].
    rewrite Db1, Db2. unfold fac2, spx, sdx. rewrite G1, G2, G3, G4, G5, G6, G7, G8, HN0. fold Nx Ny. f_equal.
    + destruct (s_pol s1); [reflexivity|]. rewrite (eps_dir_my_x av _ Nx Ny (s_epsC s1)) by assumption. reflexivity.
    + cbn [fst]. rewrite !pax_no_pml. apply ax_rel; [assumption|]. intros c Hc. apply HF; assumption.
  - intros i j HN Hi Hj. destruct (D1 i (next Ny j) Hi (next_lt _ _ Hj)) as [Da1 Db1]; destruct (D2 i (mir Ny j) Hi (mir_lt _ _ HNy)) as [Da2 Db2].
    split; [|exact Da1]. rewrite Da2. transitivity (fac1 s2 av (pix Ny i (mir Ny j)) * (- spy s1 Bwd (fun c => F1 (pix Ny i c)) (next Ny j)))%C; [|ring].
    f_equal. unfold spy, sdy. rewrite G1, G2, G3, G5, G6, G7, G8, HN0. fold Nx Ny.
    cbn [snd]. rewrite !pax_no_pml. apply ax_mir_b; try assumption. intros c Hc. apply HF; assumption.
Qed.

Theorem C81_reflection_x :
  forall e s1 s2, reachable e s1 -> reachable e s2 -> solver_exact e ->
  (0 < s_Nx s1)%nat -> (0 < s_Ny s1)%nat -> s_NPML s1 = (0, 0)%nat -> same_grid s1 s2 ->
  nonsingular (s_M s1) (s_A s1) ->
  forall src1 src2 av s1' s2' a1 b1 F1 a2 b2 F2,
  s_pol s1 = PolEz \/ av = true ->
  let Nx := s_Nx s1 in let Ny := s_Ny s1 in
  mirrored_x Nx Ny (nd_buf (s_eps s1)) (nd_buf (s_eps s2)) ->
  mirrored_x Nx Ny (nd_buf src1) (nd_buf src2) ->
  solve_fields e false av (upd_src src1 s1) = (s1', Ok (a1, b1, F1)) ->
  solve_fields e false av (upd_src src2 s2) = (s2', Ok (a2, b2, F2)) ->
  mirrored_x Nx Ny F1 F2 /\ mirrored_x Nx Ny a1 a2 /\
  ((2 <= Nx)%nat -> forall i j, (i < Nx)%nat -> (j < Ny)%nat ->
     b2 (pix Ny (Nx - 1 - i) j) = (- b1 (pix Ny (next Nx i) j))%C).
Proof.
  intros e s1 s2 HR1 HR2 He HNx HNy HN0 HG HA src1 src2 av s1' s2' a1 b1 F1 a2 b2 F2 Hpa Nx Ny Heps Hsrc H1 H2.
  destruct (reflection_x e s1 s2 HR1 HR2 He HNx HNy HN0 HG HA src1 src2 av _ _ _ _ _ _ _ _ Heps Hsrc H1 H2) as (P1 & P2 & P3).
  split; [exact P1|]. split; [exact P2|]. intros HN i j Hi Hj. destruct (P3 i j HN Hi Hj) as [Q1 Q2].
  change (Nx - 1 - i)%nat with (mir Nx i). etransitivity; [exact Q1|]. fold Nx Ny in Q2. rewrite Q2. do 2 f_equal.
  destruct HG as (G1 & G2 & G3 & G4 & G5 & G6 & G7 & G8). unfold fac2. rewrite G1, G2, G4, G5, G6. fold Nx Ny.
  destruct (s_pol s1); [reflexivity|]. destruct Hpa as [|Hpa]; [discriminate|]. rewrite Hpa.
  rewrite (eps_dir_mx_x _ Nx Ny (s_epsC s1)); [reflexivity|assumption|assumption|].
  intros i' j' Hi' Hj'. unfold s_epsC, cvec. rewrite (Heps i' j' Hi' Hj'). reflexivity.
Qed.
Theorem C81_reflection_y :
  forall e s1 s2, reachable e s1 -> reachable e s2 -> solver_exact e ->
  (0 < s_Nx s1)%nat -> (0 < s_Ny s1)%nat -> s_NPML s1 = (0, 0)%nat -> same_grid s1 s2 ->
  nonsingular (s_M s1) (s_A s1) ->
  forall src1 src2 av s1' s2' a1 b1 F1 a2 b2 F2,
  s_pol s1 = PolEz \/ av = true ->
  let Nx := s_Nx s1 in let Ny := s_Ny s1 in
  mirrored_y Nx Ny (nd_buf (s_eps s1)) (nd_buf (s_eps s2)) ->
  mirrored_y Nx Ny (nd_buf src1) (nd_buf src2) ->
  solve_fields e false av (upd_src src1 s1) = (s1', Ok (a1, b1, F1)) ->
  solve_fields e false av (upd_src src2 s2) = (s2', Ok (a2, b2, F2)) ->
  mirrored_y Nx Ny F1 F2 /\ mirrored_y Nx Ny b1 b2 /\
  ((2 <= Ny)%nat -> forall i j, (i < Nx)%nat -> (j < Ny)%nat ->
     a2 (pix Ny i (Ny - 1 - j)) = (- a1 (pix Ny i (next Ny j)))%C).
Proof.
  intros e s1 s2 HR1 HR2 He HNx HNy HN0 HG HA src1 src2 av s1' s2' a1 b1 F1 a2 b2 F2 Hpa Nx Ny Heps Hsrc H1 H2.
  destruct (reflection_y e s1 s2 HR1 HR2 He HNx HNy HN0 HG HA src1 src2 av _ _ _ _ _ _ _ _ Heps Hsrc H1 H2) as (P1 & P2 & P3).
  split; [exact P1|]. split; [exact P2|]. intros HN i j Hi Hj. destruct (P3 i j HN Hi Hj) as [Q1 Q2].
  change (Ny - 1 - j)%nat with (mir Ny j). etransitivity; [exact Q1|]. fold Nx Ny in Q2. rewrite Q2. do 2 f_equal.
  destruct HG as (G1 & G2 & G3 & G4 & G5 & G6 & G7 & G8). unfold fac1. rewrite G1, G2, G4, G5, G6. fold Nx Ny.
  destruct (s_pol s1); [reflexivity|]. destruct Hpa as [|Hpa]; [discriminate|]. rewrite Hpa.
  rewrite (eps_dir_my_y _ Nx Ny (s_epsC s1)); [reflexivity|assumption|assumption|].
  intros i' j' Hi' Hj'. unfold s_epsC, cvec. rewrite (Heps i' j' Hi' Hj'). reflexivity.
Qed.
(** Hz with the default averaging=False: the primary field and the component along the axis
    are reflected; the transverse component is, at an edge, exactly when the field or the
    permittivity does not vary across that edge. *)
Theorem C81_Hz_default_partial :
  forall e s1 s2, reachable e s1 -> reachable e s2 -> solver_exact e ->
  (0 < s_Nx s1)%nat -> (0 < s_Ny s1)%nat -> s_NPML s1 = (0, 0)%nat -> same_grid s1 s2 -> s_pol s1 = PolHz ->
  nonsingular (s_M s1) (s_A s1) -> (forall k, (k < s_M s1)%nat -> (0 < nd_buf (s_eps s1) k)%R) ->
  forall src1 src2 s1' s2' ex1 ey1 hz1 ex2 ey2 hz2,
  let Nx := s_Nx s1 in let Ny := s_Ny s1 in
  mirrored_x Nx Ny (nd_buf (s_eps s1)) (nd_buf (s_eps s2)) ->
  mirrored_x Nx Ny (nd_buf src1) (nd_buf src2) ->
  solve_fields e false false (upd_src src1 s1) = (s1', Ok (ex1, ey1, hz1)) ->
  solve_fields e false false (upd_src src2 s2) = (s2', Ok (ex2, ey2, hz2)) ->
  mirrored_x Nx Ny hz1 hz2 /\ mirrored_x Nx Ny ex1 ex2 /\
  ((2 <= Nx)%nat -> forall i j, (i < Nx)%nat -> (j < Ny)%nat ->
     (ey2 (pix Ny (Nx - 1 - i) j) = (- ey1 (pix Ny (next Nx i) j))%C <->
      hz1 (pix Ny (next Nx i) j) = hz1 (pix Ny i j) \/ nd_at (s_eps s1) (next Nx i) j = nd_at (s_eps s1) i j)).
Proof.
  intros e s1 s2 HR1 HR2 He HNx HNy HN0 HG HP HA Hpos src1 src2 s1' s2' a1 b1 F1 a2 b2 F2 Nx Ny Heps Hsrc H1 H2.
  destruct (reflection_x e s1 s2 HR1 HR2 He HNx HNy HN0 HG HA src1 src2 false _ _ _ _ _ _ _ _ Heps Hsrc H1 H2) as (P1 & P2 & P3).
  split; [exact P1|]. split; [exact P2|]. intros HN i j Hi Hj. destruct (P3 i j HN Hi Hj) as [Q1 Q2].
  assert (HPh := reachable_physical e s1 HR1 HNx HNy). destruct (sd_neq0 s1 HPh) as [Hdx Hdy].
  destruct HPh as (HL & Ho & _). assert (HE := EPSILON_0_pos).
  change (Nx - 1 - i)%nat with (mir Nx i). fold Nx Ny in Q1, Q2. rewrite Q1, Q2.
  destruct HG as (G1 & G2 & G3 & G4 & G5 & G6 & G7 & G8). unfold fac2. rewrite G1, G2, G4, HP, G5, G6. fold Nx Ny.
  unfold spx. rewrite HN0. cbn [fst]. rewrite pax_no_pml. unfold ax. fold Nx. rewrite ltb_true by assumption. rewrite prev_next by assumption.
  assert (HNi := next_lt Nx i Hi).
  assert (HM: (mir Nx i < Nx)%nat) by (apply mir_lt; assumption).
  rewrite !eps_dir_x by assumption.
  assert (E2: s_epsC s2 (pix Ny (mir Nx i) j) = RtoC (nd_at (s_eps s1) i j)).
  { unfold s_epsC, cvec, mir. rewrite (Heps i j Hi Hj). unfold nd_at. destruct (reachable_consistent e s1 HR1) as (_ & <- & _). reflexivity. }
  assert (E1: s_epsC s1 (pix Ny (next Nx i) j) = RtoC (nd_at (s_eps s1) (next Nx i) j)).
  { unfold s_epsC, cvec, nd_at. destruct (reachable_consistent e s1 HR1) as (_ & <- & _). reflexivity. }
  rewrite E1, E2.
  assert (Hp1: (0 < nd_at (s_eps s1) (next Nx i) j)%R).
  { unfold nd_at. destruct (reachable_consistent e s1 HR1) as (_ & <- & _). apply Hpos. apply flat_lt; assumption. }
  assert (Hp2: (0 < nd_at (s_eps s1) i j)%R).
  { unfold nd_at. destruct (reachable_consistent e s1 HR1) as (_ & <- & _). apply Hpos. apply flat_lt; assumption. }
  set (x := nd_at (s_eps s1) (next Nx i) j) in *. set (y := nd_at (s_eps s1) i j) in *.
  set (u := F1 (pix Ny (next Nx i) j)). set (v := F1 (pix Ny i j)).
  assert (Hc: (EPSILON_0 * s_L0 s1)%R <> 0%R) by (apply Rgt_not_eq, Rmult_lt_0_compat; lra).
  assert (N1: RtoC (s_omega s1) <> RtoC 0) by (apply RtoC_neq0; lra).
  assert (N2: RtoC (EPSILON_0 * s_L0 s1) <> RtoC 0) by (apply RtoC_neq0; assumption).
  assert (N3: RtoC x <> RtoC 0) by (apply RtoC_neq0; lra). assert (N4: RtoC y <> RtoC 0) by (apply RtoC_neq0; lra).
  assert (N5: RtoC (sdx s1) <> RtoC 0) by (apply RtoC_neq0; assumption). assert (N6 := Ci_neq0).
  split.
  - intro E.
    assert (E': ((u - v) * (RtoC x - RtoC y) = RtoC 0)%C).
    { set (q := (RtoC (EPSILON_0 * s_L0 s1) * RtoC x * RtoC y * Ci * RtoC (s_omega s1) * RtoC (sdx s1))%C).
      assert (Eq: forall a b : C, a = b -> (q * a = q * b)%C) by (intros; subst; reflexivity).
      apply Eq in E. unfold q in E.
      match type of E with ?l = ?r => assert (EE: (l - r = (u - v) * (RtoC x - RtoC y))%C) end.
      { field. repeat split; assumption. }
      rewrite <- EE, E. ring. }
    apply Cmult_integral in E'. destruct E' as [E'|E'].
    + left. transitivity ((u - v) + v)%C; [ring|]. rewrite E'. ring.
    + right. apply RtoC_inj. transitivity ((RtoC x - RtoC y) + RtoC y)%C; [ring|]. rewrite E'. ring.
  - intros [E|E].
    + rewrite E. unfold Cdiv. ring.
    + rewrite E. reflexivity.
Qed.

(* ------------------------------------------------------------------ *)
(** ** simulations for the examples *)
Definition sym_pol (p : string) : pol := if String.eqb p "Ez" then PolEz else PolHz.
Lemma sym_check p L0 : (p = "Ez" \/ p = "Hz")%string -> (0 < L0)%R -> check_inputs L0 ex_omega (Some [0; 0]%Z) p = true.
Proof.
  intros Hp HL. unfold check_inputs.
  destruct (Rlt_dec 0 L0) as [|H]; [|contradiction].
  destruct (Rlt_dec 0 ex_omega) as [|H]; [|exfalso; apply H, ex_omega_pos].
  destruct Hp as [-> | ->]; reflexivity.
Qed.
Record sym_example (s : sim) (p : string) (eps : nd R) (L0 : R) : Prop := {
  sy_reach : reachable ex_env s;
  sy_ns : nonsingular (s_M s) (s_A s);
  sy_fields : s_omega s = ex_omega /\ s_L0 s = L0 /\ s_Nx s = nd_nx eps /\ s_Ny s = nd_ny eps /\ s_eps s = eps /\
    s_xrange s = (0, INR (nd_nx eps) * / L0)%R /\ s_yrange s = (0, INR (nd_ny eps) * / L0)%R /\
    s_NPML s = (0, 0)%nat /\ s_pol s = sym_pol p;
  sy_M : s_M s = nd_size eps }.
Lemma sym_ex p (eps : nd R) L0 : (p = "Ez" \/ p = "Hz")%string -> (0 < L0)%R ->
  (2 <= nd_nx eps)%nat -> (2 <= nd_ny eps)%nat -> (forall k, (1 <= nd_buf eps k)%R) ->
  exists s, sym_example s p eps L0.
Proof.
  intros Hp HL HNx HNy Heps.
  assert (HS: exists s, Simulation ex_omega eps (/ L0) (Some [0;0]%Z) p L0 = Ok s).
  { unfold Simulation. rewrite sym_check by assumption. eexists; reflexivity. }
  destruct HS as [s HS]. exists s.
  assert (HF := Simulation_fields _ _ _ _ _ _ _ HS).
  assert (HC := Simulation_consistent _ _ _ _ _ _ _ HS).
  destruct (consistent_A s HC) as [EA ED].
  destruct HF as (E1 & E2 & E3 & E4 & E5 & E6 & E7 & E8 & _ & _ & E9 & EPz & EPh & _).
  specialize (E9 0%Z 0%Z eq_refl). change (Z.to_nat 0, Z.to_nat 0) with (0,0)%nat in E9.
  assert (HLi: (0 < / L0)%R) by (apply Rinv_0_lt_compat; assumption).
  assert (EP: s_pol s = sym_pol p).
  { destruct Hp as [-> | ->]; unfold sym_pol; simpl; [apply EPz|apply EPh]; reflexivity. }
  assert (HE := EPSILON_0_pos). assert (Ho := ex_omega_pos). assert (HMU := MU_0_pos). assert (HQ := ex_omega_sq).
  assert (HdL: dL (nd_nx eps) (nd_ny eps) (0, INR (nd_nx eps) * / L0)%R (0, INR (nd_ny eps) * / L0)%R = (/ L0, / L0)%R) by (apply dL_new; lia).
  constructor.
  - exists ex_omega, eps, (/ L0)%R, (Some [0;0]%Z), p, L0, s, []. repeat split; try assumption; lia.
  - unfold s_M. rewrite EA, E1, E2, E3, E4, E6, E7, E9, EP. unfold s_epsC. rewrite E5.
    destruct Hp as [-> | ->]; unfold sym_pol; simpl.
    + apply (Ez_nonsingular _ _ _ _ _ _ (nd_buf eps) true (/ L0)); try assumption.
      intros k Hk. replace (ex_omega ^ 2 * (EPSILON_0 * L0) * (MU_0 * L0) * (/ L0 * / L0) * nd_buf eps k)%R
         with ((ex_omega ^ 2 * (EPSILON_0 * MU_0)) * nd_buf eps k)%R by (field; lra).
      rewrite HQ. specialize (Heps k). lra.
    + assert (HEL: (0 < EPSILON_0 * L0)%R) by (apply Rmult_lt_0_compat; lra).
      apply (Hz_nonsingular _ _ _ _ _ _ (nd_buf eps) true (/ L0) (1 / (EPSILON_0 * L0))); try assumption.
      * apply Rlt_le, Rdiv_lt_0_compat; lra.
      * assert (HB: forall r, (1 <= r)%R -> (Cmod (/ RtoC (EPSILON_0 * L0 * r))%C <= 1 / (EPSILON_0 * L0))%R).
        { intros r Hr. assert (0 < EPSILON_0 * L0 * r)%R by (apply Rmult_lt_0_compat; lra).
          rewrite <- RtoC_inv by lra. rewrite Cmod_R, Rabs_pos_eq by (apply Rlt_le, Rinv_0_lt_compat; lra).
          unfold Rdiv. rewrite Rmult_1_l. apply Rinv_le_contravar; nra. }
        assert (HD: forall a b, ((RtoC (EPSILON_0 * L0) * RtoC a + RtoC (EPSILON_0 * L0) * RtoC b) / RtoC 2)%C = RtoC (EPSILON_0 * L0 * ((a + b) / 2))).
        { intros a b. unfold Cdiv. rewrite <- RtoC_inv by lra. rewrite <- !RtoC_mult, <- RtoC_plus, <- RtoC_mult. f_equal. field. }
        intros k Hk. destruct (pix_bound _ _ _ Hk) as (i & j & Hi & Hj & ->).
        rewrite eps_dir_x, eps_dir_y by assumption. cbn [cvec]. unfold cvec. rewrite !HD.
        split; apply HB; match goal with |- (1 <= (nd_buf eps ?a + nd_buf eps ?b) / 2)%R => assert (Ha := Heps a); assert (Hb := Heps b); lra end.
      * apply (Rmult_lt_reg_r (EPSILON_0 * L0)); [assumption|].
        replace (8 * (1 / (EPSILON_0 * L0)) * (EPSILON_0 * L0))%R with 8%R by (field; lra).
        replace (ex_omega ^ 2 * (MU_0 * L0) * (/ L0 * / L0) * (EPSILON_0 * L0))%R with (ex_omega ^ 2 * (EPSILON_0 * MU_0))%R by (field; lra). lra.
  - repeat split; assumption.
  - unfold s_M, nd_size. rewrite E3, E4. reflexivity.
Qed.
Lemma sym_solvable s p eps L0 av src : sym_example s p eps L0 -> nd_size src = nd_size eps ->
  exists s' a b F, solve_fields ex_env false av (upd_src src s) = (s', Ok (a, b, F)).
Proof.
  intros H Hs. destruct (solve_fields_lin ex_env av (upd_src src s)) as [X [_ HX]].
  - change (nd_size src = s_M s). rewrite (sy_M _ _ _ _ H). exact Hs.
  - cbv zeta in HX. do 4 eexists. exact HX.
Qed.
(** Full property for Hz with the default averaging; false of the code. *)
Definition C81_property_Hz_default : Prop :=
  forall e s1 s2, reachable e s1 -> reachable e s2 -> solver_exact e ->
  (2 <= s_Nx s1)%nat -> (2 <= s_Ny s1)%nat -> s_NPML s1 = (0, 0)%nat -> same_grid s1 s2 -> s_pol s1 = PolHz ->
  nonsingular (s_M s1) (s_A s1) -> (forall k, (k < s_M s1)%nat -> (0 < nd_buf (s_eps s1) k)%R) ->
  forall src1 src2 s1' s2' ex1 ey1 hz1 ex2 ey2 hz2,
  let Nx := s_Nx s1 in let Ny := s_Ny s1 in
  mirrored_x Nx Ny (nd_buf (s_eps s1)) (nd_buf (s_eps s2)) ->
  mirrored_x Nx Ny (nd_buf src1) (nd_buf src2) ->
  solve_fields e false false (upd_src src1 s1) = (s1', Ok (ex1, ey1, hz1)) ->
  solve_fields e false false (upd_src src2 s2) = (s2', Ok (ex2, ey2, hz2)) ->
  forall i j, (i < Nx)%nat -> (j < Ny)%nat -> ey2 (pix Ny (Nx - 1 - i) j) = (- ey1 (pix Ny (next Nx i) j))%C.
Definition ex81_eps : nd R := mkNd 2 2 (fun k => match k with 2 => 3 | _ => 1 end)%R.
Definition ex81_eps' : nd R := mkNd 2 2 (fun k => match k with 0 => 3 | _ => 1 end)%R.
Definition ex81_X : vec := fun k => match k with O => RtoC 1 | _ => RtoC 0 end.
Lemma ex81_ge : forall k, (1 <= nd_buf ex81_eps k)%R /\ (1 <= nd_buf ex81_eps' k)%R.
Proof. intro k. unfold ex81_eps, ex81_eps'. cbn [nd_buf]. split; do 3 (destruct k as [|k]; [lra|]); lra. Qed.
Lemma ex81_same s1 s2 p eps1 eps2 L0 : sym_example s1 p eps1 L0 -> sym_example s2 p eps2 L0 ->
  nd_nx eps1 = nd_nx eps2 -> nd_ny eps1 = nd_ny eps2 -> same_grid s1 s2.
Proof.
  intros [_ _ (A1 & A2 & A3 & A4 & A5 & A6 & A7 & A8 & A9) _] [_ _ (B1 & B2 & B3 & B4 & B5 & B6 & B7 & B8 & B9) _] Hx Hy.
  unfold same_grid. rewrite A1, A2, A3, A4, A6, A7, A8, A9, B1, B2, B3, B4, B6, B7, B8, B9, Hx, Hy. repeat split.
Qed.
Theorem C81_Hz_default_averaging_refuted : ~ C81_property_Hz_default.
Proof.
  intro H.
  destruct (sym_ex "Hz" ex81_eps 1 ltac:(auto) ltac:(lra) ltac:(simpl; lia) ltac:(simpl; lia) ltac:(intro; apply ex81_ge)) as [s1 E1].
  destruct (sym_ex "Hz" ex81_eps' 1 ltac:(auto) ltac:(lra) ltac:(simpl; lia) ltac:(simpl; lia) ltac:(intro; apply ex81_ge)) as [s2 E2].
  assert (HG := ex81_same _ _ _ _ _ _ E1 E2 eq_refl eq_refl).
  destruct E1 as [R1 N1 F1 M1]; destruct E2 as [R2 N2 F2 M2].
  destruct F1 as (A1 & A2 & A3 & A4 & A5 & A6 & A7 & A8 & A9). destruct F2 as (B1 & B2 & B3 & B4 & B5 & B6 & B7 & B8 & B9).
  change (nd_size ex81_eps) with 4%nat in M1. change (nd_size ex81_eps') with 4%nat in M2.
  change (nd_nx ex81_eps) with 2%nat in A3. change (nd_ny ex81_eps) with 2%nat in A4. change (sym_pol "Hz") with PolHz in A9.
  set (src1 := mkNd 2 2 (fun k => (mv 4 (s_A s1) ex81_X k / (Ci * RtoC ex_omega))%C)).
  set (src2 := mkNd 2 2 (fun k => nd_buf src1 (pix 2 (1 - k / 2) (k mod 2)))).
  destruct (solve_fields_lin ex_env false (upd_src src1 s1)) as [X1 [_ HX1]]; [change (4%nat = s_M s1); congruence|].
  destruct (solve_fields_lin ex_env false (upd_src src2 s2)) as [X2 [_ HX2]]; [change (4%nat = s_M s2); congruence|].
  cbv zeta in HX1, HX2.
  assert (Hpos: forall k, (k < s_M s1)%nat -> (0 < nd_buf (s_eps s1) k)%R).
  { intros k _. rewrite A5. assert (HH := proj1 (ex81_ge k)). lra. }
  assert (Heps: mirrored_x (s_Nx s1) (s_Ny s1) (nd_buf (s_eps s1)) (nd_buf (s_eps s2))).
  { rewrite A3, A4, A5, B5. intros i j Hi Hj. destruct i as [|[|i]]; [| |lia]; (destruct j as [|[|j]]; [| |lia]); reflexivity. }
  assert (Hsrc: mirrored_x (s_Nx s1) (s_Ny s1) (nd_buf src1) (nd_buf src2)).
  { rewrite A3, A4. intros i j Hi Hj. unfold src2; cbn [nd_buf].
    destruct i as [|[|i]]; [| |lia]; (destruct j as [|[|j]]; [| |lia]); reflexivity. }
  assert (Hx: (0 < s_Nx s1)%nat) by (rewrite A3; lia). assert (Hy: (0 < s_Ny s1)%nat) by (rewrite A4; lia).
  destruct (C81_Hz_default_partial ex_env s1 s2 R1 R2 ex_env_exact Hx Hy A8 HG A9 N1 Hpos
     src1 src2 _ _ _ _ _ _ _ _ Heps Hsrc HX1 HX2) as (_ & _ & HI).
  assert (Hx2: (2 <= s_Nx s1)%nat) by (rewrite A3; lia). assert (Hy2: (2 <= s_Ny s1)%nat) by (rewrite A4; lia).
  assert (Hi: (0 < s_Nx s1)%nat) by exact Hx.
  assert (HH := H ex_env s1 s2 R1 R2 ex_env_exact Hx2 Hy2 A8 HG A9 N1 Hpos
     src1 src2 _ _ _ _ _ _ _ _ Heps Hsrc HX1 HX2 0%nat 0%nat Hx Hy).
  apply (HI Hx2 0%nat 0%nat Hx Hy) in HH. clear HI.
  assert (Ho := ex_omega_pos).
  assert (HXX: veq 4 X1 ex81_X).
  { assert (HS := solve_fields_solves ex_env false false (upd_src src1 s1) _ _ _ _ ex_env_exact N1 HX1).
    cbn [used_matrix] in HS. change (s_M (upd_src src1 s1)) with (s_M s1) in HS. change (s_A (upd_src src1 s1)) with (s_A s1) in HS.
    rewrite M1 in *. apply (solves_unique 4 (s_A s1) X1 ex81_X _ N1 HS).
    intros k Hk. change (csum 4 _) with (mv 4 (s_A s1) ex81_X k). unfold rhs. cbn [upd_src s_src s_omega nd_buf src1]. rewrite A1. field.
    split; [apply RtoC_neq0; lra|apply Ci_neq0]. }
  rewrite A3, A4 in HH. change (next 2 0) with 1%nat in HH. change (pix 2 1 0) with 2%nat in HH. change (pix 2 0 0) with 0%nat in HH.
  rewrite !HXX in HH by lia. rewrite A5 in HH. destruct HH as [HH|HH].
  - cbn [ex81_X] in HH. apply RtoC_inj in HH. lra.
  - unfold nd_at in HH. cbn in HH. lra.
Qed.

(** non-vacuity of C79-C81: a heterogeneous 2 x 2 domain and its image *)
Example C79_met : forall p, (p = "Ez" \/ p = "Hz")%string -> exists s1 s2, reachable ex_env s1 /\ reachable ex_env s2 /\
  s_NPML s1 = (0, 0)%nat /\ same_grid s1 s2 /\ nonsingular (s_M s1) (s_A s1) /\
  moved_by (s_Nx s1) (s_Ny s1) 1 0 (nd_buf (s_eps s1)) (nd_buf (s_eps s2)) /\
  mirrored_x (s_Nx s1) (s_Ny s1) (nd_buf (s_eps s1)) (nd_buf (s_eps s2)) /\
  (forall src av, nd_size src = 4%nat ->
     (exists s' a b F, solve_fields ex_env false av (upd_src src s1) = (s', Ok (a, b, F))) /\
     (exists s' a b F, solve_fields ex_env false av (upd_src src s2) = (s', Ok (a, b, F)))).
Proof.
  intros p Hp.
  destruct (sym_ex p ex81_eps 1 Hp ltac:(lra) ltac:(simpl; lia) ltac:(simpl; lia) ltac:(intro; apply ex81_ge)) as [s1 E1].
  destruct (sym_ex p ex81_eps' 1 Hp ltac:(lra) ltac:(simpl; lia) ltac:(simpl; lia) ltac:(intro; apply ex81_ge)) as [s2 E2].
  exists s1, s2. split; [apply (sy_reach _ _ _ _ E1)|]. split; [apply (sy_reach _ _ _ _ E2)|].
  split; [apply (sy_fields _ _ _ _ E1)|]. split; [apply (ex81_same _ _ _ _ _ _ E1 E2 eq_refl eq_refl)|].
  split; [apply (sy_ns _ _ _ _ E1)|].
  destruct (sy_fields _ _ _ _ E1) as (_ & _ & A3 & A4 & A5 & _). destruct (sy_fields _ _ _ _ E2) as (_ & _ & _ & _ & B5 & _).
  rewrite A3, A4, A5, B5. split; [|split].
  1,2: intros i j Hi Hj; change (nd_nx ex81_eps) with 2%nat in *; change (nd_ny ex81_eps) with 2%nat in *;
    destruct i as [|[|i]]; [| |lia]; (destruct j as [|[|j]]; [| |lia]); reflexivity.
  intros src av Hs. split; [apply (sym_solvable _ _ _ _ av src E1 Hs)|apply (sym_solvable _ _ _ _ av src E2 Hs)].
Qed.
Definition ex80_eps : nd R := mkNd 2 3 (fun k => match k with 1 => 2 | 3 => 5 | _ => 1 end)%R.
Definition ex80_eps' : nd R := mkNd 3 2 (fun k => match k with 2 => 2 | 1 => 5 | _ => 1 end)%R.
Lemma ex80_ge : forall k, (1 <= nd_buf ex80_eps k)%R /\ (1 <= nd_buf ex80_eps' k)%R.
Proof. intro k. unfold ex80_eps, ex80_eps'. cbn [nd_buf]. split; do 4 (destruct k as [|k]; [lra|]); lra. Qed.
Example C80_met : forall p, (p = "Ez" \/ p = "Hz")%string -> exists s1 s2, reachable ex_env s1 /\ reachable ex_env s2 /\
  axes_exchanged s1 s2 /\ nonsingular (s_M s1) (s_A s1) /\
  transpose_of (s_Nx s1) (s_Ny s1) (nd_buf (s_eps s1)) (nd_buf (s_eps s2)) /\
  (forall src av, nd_size src = 6%nat ->
     (exists s' a b F, solve_fields ex_env false av (upd_src src s1) = (s', Ok (a, b, F))) /\
     (exists s' a b F, solve_fields ex_env false av (upd_src src s2) = (s', Ok (a, b, F)))).
Proof.
  intros p Hp.
  destruct (sym_ex p ex80_eps 1 Hp ltac:(lra) ltac:(simpl; lia) ltac:(simpl; lia) ltac:(intro; apply ex80_ge)) as [s1 E1].
  destruct (sym_ex p ex80_eps' 1 Hp ltac:(lra) ltac:(simpl; lia) ltac:(simpl; lia) ltac:(intro; apply ex80_ge)) as [s2 E2].
  exists s1, s2. split; [apply (sy_reach _ _ _ _ E1)|]. split; [apply (sy_reach _ _ _ _ E2)|].
  destruct (sy_fields _ _ _ _ E1) as (A1 & A2 & A3 & A4 & A5 & A6 & A7 & A8 & A9).
  destruct (sy_fields _ _ _ _ E2) as (B1 & B2 & B3 & B4 & B5 & B6 & B7 & B8 & B9).
  split; [unfold axes_exchanged; rewrite A1, A2, A3, A4, A6, A7, A8, A9, B1, B2, B3, B4, B6, B7, B8, B9; repeat split|].
  split; [apply (sy_ns _ _ _ _ E1)|]. rewrite A3, A4, A5, B5. split.
  - intros i j Hi Hj. change (nd_nx ex80_eps) with 2%nat in *; change (nd_ny ex80_eps) with 3%nat in *.
    destruct i as [|[|i]]; [| |lia]; (destruct j as [|[|[|j]]]; [| | |lia]); reflexivity.
  - intros src av Hs. split; [apply (sym_solvable _ _ _ _ av src E1 Hs)|apply (sym_solvable _ _ _ _ av src E2 Hs)].
Qed.
