(** C94: the power scan of a device without nonlinearity. *)
From Coq Require Import Reals Lra Lia List ZArith Arith Bool String.
From Coquelicot Require Import Coquelicot.
From Verif Require Import Base Linear MCore MSim MFilter MOpt MMode Spec PCore PSim PEx PExOpt PMode PropsCore PropsSolve PropsLin PropsIter PropsOpt3 PropsFlux PropsMode PropsScan.
Import ListNotations.
Local Open Scope string_scope.

(* ------------------------------------------------------------------ *)
(** ** Specification *)

(** the source of the simulation is zero away from the line of the mode *)
Definition no_other_source (m : mode) (s : sim) : Prop :=
  forall i j, (i < nd_nx (s_src s))%nat -> (j < nd_ny (s_src s))%nat ->
  ~ on_line m (nd_nx (s_src s)) (nd_ny (s_src s)) i j -> nd_at (s_src s) i j = RtoC 0.
(** lambda simulation: simulation.flux_probe(direction, center, width, nl) *)
Definition flux_of (nl : bool) (p : string * (Z * Z) * Z) : St sim R := fun s =>
  (s, flux_probe (fst (fst p)) (snd (fst p)) (snd p) nl s).

(* ------------------------------------------------------------------ *)
(** ** Solutions of the linear problem, with the derived components *)
Definition lin_fields (s : sim) (F : vec * vec * vec) : Prop :=
  let '(a, b, X) := F in solves (s_M s) (s_A s) X (rhs s) /\
  forall k, (k < s_M s)%nat -> a k = fst (derived_fields s (s_epsC s) false X) k /\ b k = snd (derived_fields s (s_epsC s) false X) k.

Lemma derived_same s s' X : same_problem s s' -> derived_fields s' (s_epsC s') false X = derived_fields s (s_epsC s) false X.
Proof.
  intro HS. unfold same_problem in HS. destruct HS as (E1 & E2 & _ & E4 & _ & E6 & E7 & _ & _ & _ & E11 & _ & E13 & _).
  unfold derived_fields, s_epsC, s_M. rewrite E1, E2, E4, E6, E7, E11, E13. reflexivity.
Qed.
Lemma lin_fields_same s s' F : same_problem s s' -> lin_fields s' F -> lin_fields s F.
Proof.
  intros HS. destruct F as [[a b] X]. destruct (same_system _ _ HS) as (EM & EA & _ & ER). unfold lin_fields.
  rewrite (derived_same _ _ X HS), EM, EA. intros [H1 H2]. split; [|exact H2]. intros r Hr. rewrite <- ER. exact (H1 r Hr).
Qed.
Lemma lin_fields_lin e s s1 F : solver_exact e -> nonsingular (s_M s) (s_A s) ->
  solve_fields e false false s = (s1, Ok F) -> lin_fields s F.
Proof.
  intros He HA H. destruct F as [[a b] X]. assert (H1 := solve_fields_solves e false false s _ _ _ _ He HA H).
  apply solve_fields_ok in H as (_ & _ & HD & _). cbn [used_eps used_matrix] in *. split; [exact H1|]. intros k _. rewrite <- HD. auto.
Qed.
Lemma lin_fields_nl e s G s1 F : solver_exact e -> no_nonlinearity s -> nonsingular (s_M s) (s_A s) ->
  solve_fields e true false (compute_nl G s) = (s1, Ok F) -> lin_fields s F.
Proof.
  intros He Hq HA H. destruct F as [[a b] X]. assert (H0 := H). apply solve_fields_ok in H0 as (HZ & _).
  destruct (solve_fields_lin e false s HZ) as (Y & _ & HL). cbv zeta in HL.
  assert (L := lin_fields_lin _ _ _ _ He HA HL).
  destruct (solve_nl_is_linear _ _ _ _ _ _ _ _ _ _ _ He Hq HA H HL) as (Q1 & Q2 & Q3).
  assert (HD := derived_fields_ext s (s_epsC s) (s_epsC s) false X Y (fun _ => eq_refl) Q1).
  destruct L as [L1 L2]. split.
  - intros r Hr. rewrite <- (L1 r Hr). apply csum_ext. intros c Hc. rewrite (Q1 c Hc). reflexivity.
  - intros k Hk. rewrite (Q2 k Hk), (Q3 k Hk). destruct (HD k Hk) as [-> ->]. auto.
Qed.
Lemma no_nl_same s s' : same_problem s s' -> no_nonlinearity s -> no_nonlinearity s'.
Proof. unfold no_nonlinearity. intros HS H. destruct HS as (_ & _ & _ & _ & _ & _ & _ & _ & _ & _ & _ & _ & _ & _ & -> & _). exact H. Qed.

(** fields of solvers that end with a solve *)
Lemma born_loop_lin e thr n : solver_exact e -> forall G s s1 F l, no_nonlinearity s -> nonsingular (s_M s) (s_A s) ->
  born_loop e thr n G s = (s1, Ok (Some F, l)) -> lin_fields s F.
Proof.
  intro He. induction n as [|n IH]; intros G s s1 F l Hq HA H; [discriminate|]. cbn [born_loop] in H.
  destruct (solve_fields e true false (compute_nl G s)) as [s2 [[[a b] X]|]] eqn:E; [|discriminate].
  assert (L := lin_fields_nl _ _ _ _ _ He Hq HA E).
  assert (S2: s2 = compute_nl G s) by (eapply solve_fields_nl_state; exact E). subst s2.
  destruct (xlt _ thr); [injection H as _ <- _; exact L|].
  destruct (born_loop e thr n X (compute_nl G s)) as [s3 [[[F3|] l3]|]] eqn:E3; [| |discriminate].
  - injection H as _ <- _. apply (lin_fields_same s (compute_nl G s)); [apply compute_nl_same|]. eapply IH; [exact Hq|exact HA|exact E3].
  - injection H as _ <- _. exact L.
Qed.
Lemma newton_loop_same e thr n : forall E s s1 r, newton_loop e thr n E s = (s1, r) -> same_problem s s1.
Proof.
  induction n as [|n IH]; intros E s s1 r H; [injection H as <- _; apply same_refl|]. cbn [newton_loop] in H.
  unfold nl_eq_and_jac in H. destruct (s_pol s); [|injection H as <- _; apply same_refl].
  destruct (Nat.eqb _ _); [|injection H as <- _; apply compute_nl_same].
  destruct (solver_complex2real _ _ _ _ _ _) as [d|]; [|injection H as <- _; apply compute_nl_same].
  destruct (xlt _ _); [injection H as <- _; apply compute_nl_same|].
  destruct (newton_loop e thr n _ _) as [s2 [[E' l]|]] eqn:E2; apply IH in E2; injection H as <- _; eapply same_trans; [apply compute_nl_same|exact E2|apply compute_nl_same|exact E2].
Qed.
Lemma run_solver_lin e av Es name thr n s s1 F conv : solver_exact e -> no_nonlinearity s -> nonsingular (s_M s) (s_A s) ->
  (name = "born" \/ name = "newton" \/ name = "hybrid") ->
  run_solver_nl e av Es name thr n s = (s1, Ok (F, conv)) -> lin_fields s F.
Proof.
  intros He Hq HA Hname H.
  assert (HB: forall n s s1 F conv Es, no_nonlinearity s -> nonsingular (s_M s) (s_A s) -> born_solve e Es thr n av s = (s1, Ok (F, conv)) -> lin_fields s F).
  { clear - He. intros n s s1 F conv Es Hq HA H. unfold born_solve in H.
    destruct (start_field e (pol_comp (s_pol s)) Es s) as [s2 [G|]] eqn:E; [|discriminate]. apply start_field_same in E.
    destruct (same_system _ _ E) as (EM & EA & _).
    destruct (born_loop e thr n G s2) as [s3 [[[F3|] l3]|]] eqn:E3; try discriminate. injection H as _ <- _.
    apply (lin_fields_same _ _ _ E). eapply born_loop_lin; [exact He|eapply no_nl_same; eassumption|rewrite EM, EA; exact HA|exact E3]. }
  assert (HN: forall n s s1 F conv Es, no_nonlinearity s -> nonsingular (s_M s) (s_A s) -> newton_solve e Es thr n av s = (s1, Ok (F, conv)) -> lin_fields s F).
  { clear - He. intros n s s1 F conv Es Hq HA H. unfold newton_solve in H. destruct (s_pol s); [|discriminate].
    destruct (start_field e Ez Es s) as [s2 [G|]] eqn:E; [|discriminate]. apply start_field_same in E.
    destruct (newton_loop e thr n G s2) as [s3 [[E' l3]|]] eqn:E3; [|discriminate]. apply newton_loop_same in E3.
    assert (E4 := same_trans _ _ _ E E3). destruct (same_system _ _ E4) as (EM & EA & _).
    destruct (solve_fields e true false (compute_nl E' s3)) as [s5 [F5|]] eqn:E5; [|discriminate].
    assert (L: lin_fields s3 F5) by (eapply lin_fields_nl; [exact He|eapply no_nl_same; eassumption|rewrite EM, EA; exact HA|exact E5]).
    destruct n; [discriminate|]. injection H as _ <- _. apply (lin_fields_same _ _ _ E4 L). }
  unfold run_solver_nl in H. destruct Hname as [->|[->| ->]].
  - change (String.eqb "born" "born") with true in H. cbv iota in H. eapply HB; eassumption.
  - change (String.eqb "newton" "born") with false in H. change (String.eqb "newton" "newton") with true in H. cbv iota in H. eapply HN; eassumption.
  - change (String.eqb "hybrid" "born") with false in H. change (String.eqb "hybrid" "newton") with false in H.
    change (String.eqb "hybrid" "LM") with false in H. change (String.eqb "hybrid" "krylov") with false in H. change (String.eqb "hybrid" "hybrid") with true in H. cbv iota beta in H.
    destruct (born_solve e Es thr 20 av s) as [s2 [[FB cb]|]] eqn:EB; [|discriminate].
    destruct (last_conv cb) as [c|]; [|discriminate]. destruct (xgt c _).
    + assert (S2: same_problem s s2).
      { clear - EB. unfold born_solve in EB. destruct (start_field e (pol_comp (s_pol s)) Es s) as [s3 [G|]] eqn:E; [|discriminate]. apply start_field_same in E.
        destruct (born_loop e thr 20 G s3) as [s4 [[[F3|] l3]|]] eqn:E3; try discriminate. injection EB as <- _ _.
        eapply same_trans; [exact E|]. clear - E3. revert G s3 s4 F3 l3 E3. generalize 20%nat as n. induction n as [|n IH]; intros; [discriminate|]. cbn [born_loop] in E3.
        destruct (solve_fields e true false (compute_nl G s3)) as [s2 [[[a b] X]|]] eqn:E; [|discriminate].
        apply solve_fields_nl_state in E. subst s2. destruct (xlt _ thr); [injection E3 as <- _ _; apply compute_nl_same|].
        destruct (born_loop e thr n X (compute_nl G s3)) as [s5 [[[F5|] l5]|]] eqn:E5; [| |discriminate].
        - injection E3 as <- _ _. eapply same_trans; [apply compute_nl_same|eapply IH; exact E5].
        - injection E3 as <- _ _. destruct n; [injection E5 as <- _; apply compute_nl_same|]. exfalso. clear - E5. cbn [born_loop] in E5.
          destruct (solve_fields e true false _) as [s2 [[[a b] Y]|]]; [|discriminate]. destruct (xlt _ thr); [discriminate|].
          destruct (born_loop e thr n Y s2) as [s6 [[[F6|] l6]|]]; discriminate. }
      destruct (same_system _ _ S2) as (EM & EA & _). apply (lin_fields_same _ _ _ S2).
      eapply HN; [eapply no_nl_same; eassumption|rewrite EM, EA; exact HA|exact H].
    + injection H as _ <- _. eapply HB; eassumption.
Qed.

(* ------------------------------------------------------------------ *)
(** ** Two sources in proportion *)

Lemma derived_scal s eps av c X : forall k, 
  fst (derived_fields s eps av (vscal c X)) k = (c * fst (derived_fields s eps av X) k)%C /\
  snd (derived_fields s eps av (vscal c X)) k = (c * snd (derived_fields s eps av X) k)%C.
Proof.
  assert (G: forall M a A k, vscal a (mv M A (vscal c X)) k = (c * vscal a (mv M A X) k)%C).
  { intros M a A k. transitivity (a * mv M A (vscal c X) k)%C; [reflexivity|]. rewrite mv_vscal. unfold vscal. ring. }
  intro k. unfold derived_fields. destruct (s_pol s); cbn [fst snd]; split; apply G.
Qed.
Lemma lin_fields_scaled s1 s2 c a1 b1 X1 a2 b2 X2 :
  nonsingular (s_M s1) (s_A s1) -> s_M s2 = s_M s1 -> s_A s2 = s_A s1 ->
  (forall X, derived_fields s2 (s_epsC s2) false X = derived_fields s1 (s_epsC s1) false X) ->
  (forall k, (k < s_M s1)%nat -> rhs s1 k = (c * rhs s2 k)%C) ->
  lin_fields s1 (a1, b1, X1) -> lin_fields s2 (a2, b2, X2) ->
  forall k, (k < s_M s1)%nat -> a1 k = (c * a2 k)%C /\ b1 k = (c * b2 k)%C /\ X1 k = (c * X2 k)%C.
Proof.
  intros HA EM EA ED HR [S1 D1] [S2 D2].
  assert (EX: veq (s_M s1) X1 (vscal c X2)).
  { apply (solves_unique _ (s_A s1) _ _ (rhs s1)); [exact HA|exact S1|]. intros r Hr.
    rewrite (HR r Hr). rewrite <- (S2 r ltac:(rewrite EM; exact Hr)), EM, EA, <- csum_scal. apply csum_ext. intros j _. unfold vscal. ring. }
  intros k Hk. assert (Hk2: (k < s_M s2)%nat) by (rewrite EM; exact Hk). split; [|split; [|exact (EX k Hk)]].
  - rewrite (proj1 (D1 k Hk)), (proj1 (D2 k Hk2)), ED. rewrite (proj1 (derived_fields_ext s1 _ _ false _ _ (fun _ => eq_refl) EX k Hk)). apply derived_scal.
  - rewrite (proj2 (D1 k Hk)), (proj2 (D2 k Hk2)), ED. rewrite (proj2 (derived_fields_ext s1 _ _ false _ _ (fun _ => eq_refl) EX k Hk)). apply derived_scal.
Qed.
Lemma insert_scaled e m x y s dest dx dy : (y <> 0)%R ->
  insert_mode e (with_scale m x) s dest = Ok dx -> insert_mode e (with_scale m y) s dest = Ok dy ->
  (forall i j, (i < nd_nx dest)%nat -> (j < nd_ny dest)%nat -> ~ on_line m (nd_nx dest) (nd_ny dest) i j -> nd_at dest i j = RtoC 0) ->
  nd_nx dx = nd_nx dest /\ nd_ny dx = nd_ny dest /\ nd_nx dy = nd_nx dest /\ nd_ny dy = nd_ny dest /\
  forall k, (k < nd_size dest)%nat -> nd_buf dx k = (RtoC (x / y) * nd_buf dy k)%C.
Proof.
  intros Hy H1 H2 H0. unfold insert_mode in H1, H2. cbn [with_scale md_normal md_center md_width md_order md_scale md_neff] in H1, H2.
  destruct (line_inds _ _ _) as [[[[i0 i1] j0] j1]|] eqn:EL; [|discriminate]. cbv zeta in H1, H2.
  destruct (Nat.eqb _ 0); [discriminate|]. destruct (e_eigs _ _ _ _ _) as [v|]; [|discriminate].
  assert (DD: nd_nx dx = nd_nx dest /\ nd_ny dx = nd_ny dest /\ nd_nx dy = nd_nx dest /\ nd_ny dy = nd_ny dest).
  { unfold nd_assign in H1, H2. destruct (_ && _)%bool in H1; [|discriminate]. destruct (_ && _)%bool in H2; [|discriminate].
    injection H1 as <-. injection H2 as <-. auto. }
  destruct DD as (D1 & D2 & D3 & D4). split; [exact D1|]. split; [exact D2|]. split; [exact D3|]. split; [exact D4|].
  intros k Hk. unfold nd_size in Hk. assert (Hn: (nd_ny dest <> 0)%nat) by (intro Z; rewrite Z in Hk; lia).
  set (i := (k / nd_ny dest)%nat). set (j := (k mod nd_ny dest)%nat).
  assert (Hi: (i < nd_nx dest)%nat) by (apply Nat.div_lt_upper_bound; [exact Hn|lia]).
  assert (Hj: (j < nd_ny dest)%nat) by (apply Nat.mod_upper_bound; exact Hn).
  assert (EK: forall d : nd C, nd_ny d = nd_ny dest -> nd_buf d k = nd_at d i j).
  { intros d Ed. unfold nd_at. rewrite Ed. f_equal. unfold i, j. rewrite (Nat.div_mod k (nd_ny dest) Hn) at 1. lia. }
  rewrite (EK dx D2), (EK dy D4).
  destruct (assign_at _ _ _ _ _ _ _ i j H1 Hj) as (_ & _ & A1 & A2). destruct (assign_at _ _ _ _ _ _ _ i j H2 Hj) as (_ & _ & B1 & B2).
  assert (OL := line_inds_on m (nd_nx dest) (nd_ny dest) i j _ _ _ _ EL).
  assert (DEC: forall N a b k, {in_slice N a b k} + {~ in_slice N a b k}).
  { intros N a b q. destruct (le_lt_dec (slice_bound N a) q), (lt_dec q (slice_bound N b)); [left|right|right|right]; rewrite in_slice_bounds; lia. }
  assert (Z: ~ (in_slice (nd_nx dest) i0 i1 i /\ in_slice (nd_ny dest) j0 j1 j) -> nd_at dx i j = (RtoC (x / y) * nd_at dy i j)%C).
  { intro Q. rewrite (A2 Q), (B2 Q), (H0 i j Hi Hj) by tauto. ring. }
  destruct (DEC (nd_nx dest) i0 i1 i) as [I|I]; [|apply Z; tauto]. destruct (DEC (nd_ny dest) j0 j1 j) as [J|J]; [|apply Z; tauto].
  rewrite (A1 (conj I J)), (B1 (conj I J)).
  assert (MP: forall q, mode_profile x v q = (RtoC (x / y) * mode_profile y v q)%C).
  { intro q. rewrite <- mode_profile_scale. f_equal. field. exact Hy. }
  destruct (String.eqb _ _); unfold nd_at; cbn [nd_buf nd_ny nd_nx]; apply MP.
Qed.

(** flux of fields in proportion *)
Lemma flux_scaled t dir center w nl s s2 a b X a2 b2 X2 :
  same_grid s s2 ->
  (exists d, probe_fields nl s = store3 (s_pol s) d (a, b, X)) -> (exists d, probe_fields nl s2 = store3 (s_pol s) d (a2, b2, X2)) ->
  (forall k, (k < s_M s)%nat -> a2 k = (RtoC t * a k)%C /\ b2 k = (RtoC t * b k)%C /\ X2 k = (RtoC t * X k)%C) ->
  flux_probe dir center w nl s2 =
  match flux_probe dir center w nl s with Ok P => Ok (t ^ 2 * P)%R | Raise x => Raise x end.
Proof.
  intros HG [d E1] [d2 E2] H. apply (flux_transform (Cmult (RtoC t)) (Cmult (RtoC t))); [exact HG| | | |].
  - intros z f. unfold Cdiv. ring.
  - intros xn z f. unfold poynting. destruct (s_pol s), xn; autorewrite with reim; cbn [Re Im RtoC fst snd]; ring.
  - rewrite E1, E2. destruct (s_pol s); cbn; intros k Hk; apply (H k Hk).
  - rewrite E1, E2. intros q [->| ->]; destruct (s_pol s); cbn; intros k Hk; apply (H k Hk).
Qed.

(** the input power *)
Lemma norm_scaled e m x y s Wx Wy : solver_exact e -> (y <> 0)%R -> straight_solvable m s -> no_other_source m s ->
  compute_normalization e (with_scale m x) s = Ok Wx -> compute_normalization e (with_scale m y) s = Ok Wy ->
  Wx = ((x / y) ^ 2 * Wy)%R.
Proof.
  intros He Hy HN H0 H1 H2. unfold compute_normalization in H1, H2.
  change (norm_structure (with_scale m x) (s_eps s)) with (norm_structure m (s_eps s)) in H1.
  change (norm_structure (with_scale m y) (s_eps s)) with (norm_structure m (s_eps s)) in H2.
  destruct (norm_structure m (s_eps s)) as [[eps c]|] eqn:EN; [|discriminate]. cbv zeta in H1, H2.
  change (s_src (set_eps eps s)) with (s_src s) in H1, H2.
  destruct (insert_mode e (with_scale m x) _ _) as [dx|] eqn:Ex; [|discriminate].
  destruct (insert_mode e (with_scale m y) _ _) as [dy|] eqn:Ey; [|discriminate].
  destruct (solve_fields e false false (upd_src dx _)) as [tx [[[ax bx] X]|]] eqn:SX; [|discriminate].
  destruct (solve_fields e false false (upd_src dy _)) as [ty [[[ay by'] Y]|]] eqn:SY; [|discriminate].
  cbn [with_scale md_normal md_width] in H1, H2.
  destruct (insert_scaled _ _ _ _ _ _ _ _ Hy Ex Ey H0) as (D1 & D2 & D3 & D4 & HS).
  assert (HA := HN _ _ EN).
  set (u := set_eps eps s) in *.
  assert (Hsz: nd_size (s_src s) = s_M u).
  { apply solve_fields_ok in SX as (Q & _). change (nd_size dx = s_M u) in Q. rewrite <- Q. unfold nd_size. rewrite D1, D2. reflexivity. }
  assert (LX: lin_fields (upd_src dx u) (ax, bx, X)) by (eapply lin_fields_lin; [exact He|exact HA|exact SX]).
  assert (LY: lin_fields (upd_src dy u) (ay, by', Y)) by (eapply lin_fields_lin; [exact He|exact HA|exact SY]).
  assert (LS := lin_fields_scaled (upd_src dx u) (upd_src dy u) (RtoC (x / y)) _ _ _ _ _ _ HA eq_refl eq_refl (fun _ => eq_refl)
    ltac:(intros k Hk; unfold rhs; cbn [upd_src s_src s_omega]; rewrite (HS k ltac:(rewrite Hsz; exact Hk)); ring) LX LY).
  assert (SX' := SX). assert (SY' := SY).
  apply solve_fields_lin_state in SX' as (_ & [(? & _)|(_ & X' & _ & F1 & R1)]); [discriminate|]. cbv zeta in *. injection R1 as -> -> ->.
  apply solve_fields_lin_state in SY' as (_ & [(? & _)|(_ & Y' & _ & F2 & R2)]); [discriminate|]. cbv zeta in *. injection R2 as -> -> ->.
  assert (G1 := solve_fields_same e false false (upd_src dx u)). rewrite SX in G1. cbn [fst] in G1.
  assert (G2 := solve_fields_same e false false (upd_src dy u)). rewrite SY in G2. cbn [fst] in G2.
  assert (Q: flux_probe (md_normal m) c (md_width m) false tx = match flux_probe (md_normal m) c (md_width m) false ty with Ok P => Ok ((x / y) ^ 2 * P)%R | Raise x => Raise x end).
  { unfold same_problem in G1, G2. cbn [upd_src s_pol s_Nx s_Ny s_dl] in G1, G2.
    assert (P1: s_pol ty = s_pol u) by intuition congruence. assert (P2: s_M ty = s_M u) by (unfold s_M; intuition congruence).
    eapply flux_scaled.
    - unfold same_grid. intuition congruence.
    - exists (s_fields (upd_src dy u)). unfold probe_fields. rewrite F2, P1. reflexivity.
    - exists (s_fields (upd_src dx u)). unfold probe_fields. rewrite F1, P1. reflexivity.
    - rewrite P2. exact LS. }
  rewrite H1, H2 in Q. injection Q as ->. reflexivity.
Qed.

(* ------------------------------------------------------------------ *)
(** ** Points of the scan *)

Lemma solve_nl_lin e name thr n s s1 F conv : solver_exact e -> no_nonlinearity s -> nonsingular (s_M s) (s_A s) ->
  (name = "born" \/ name = "newton" \/ name = "hybrid") ->
  solve_fields_nl e false None name thr n s = (s1, Ok (F, conv)) ->
  lin_fields s F /\ same_problem s s1 /\ exists d, s_fields_nl s1 = store3 (s_pol s) d F.
Proof.
  intros He Hq HA Hn H. unfold solve_fields_nl in H. destruct (run_solver_nl e false None name thr n s) as [s2 [[F2 c2]|]] eqn:E; [|discriminate].
  injection H as <- <- <-. split; [eapply run_solver_lin; eassumption|]. apply run_solver_nl_step in E as [HS _]. split; [exact HS|].
  exists (s_fields_nl s2). assert (EP: s_pol s2 = s_pol s) by (unfold same_problem in HS; intuition). cbn [upd_fields_nl s_fields_nl]. rewrite EP. reflexivity.
Qed.
Lemma scan_solve_lin e solver s s3 : solver_exact e -> no_nonlinearity s -> nonsingular (s_M s) (s_A s) ->
  (solver = "born" \/ solver = "newton" \/ solver = "hybrid") ->
  scan_solve e solver s = (s3, Ok tt) ->
  same_problem s s3 /\ exists d a b X, lin_fields s (a, b, X) /\ s_fields_nl s3 = store3 (s_pol s) d (a, b, X).
Proof.
  intros He Hq HA Hn H. unfold scan_solve in H. destruct (String.eqb_spec solver "hybrid") as [->|NE].
  - destruct (solve_fields_nl e false None "born" _ _ s) as [s1 [[F c]|]] eqn:E; [|discriminate].
    destruct (solve_nl_lin _ _ _ _ _ _ _ _ He Hq HA (or_introl eq_refl) E) as (L & HS & d & HF).
    destruct (last_conv c) as [c0|]; [|discriminate]. destruct (xgt c0 _).
    + unfold bind in H. destruct (solve_fields_nl e false None "newton" _ _ s1) as [s2 [[F2 c2]|]] eqn:E2; [|discriminate]. injection H as <-.
      destruct (same_system _ _ HS) as (EM & EA & EP & _).
      destruct (solve_nl_lin _ _ _ _ _ _ _ _ He (no_nl_same _ _ HS Hq) ltac:(rewrite EM, EA; exact HA) (or_intror (or_introl eq_refl)) E2) as (L2 & HS2 & d2 & HF2).
      split; [eapply same_trans; eassumption|]. destruct F2 as [[a b] X]. exists d2, a, b, X. split; [exact (lin_fields_same _ _ _ HS L2)|rewrite HF2, EP; reflexivity].
    + injection H as <-. split; [exact HS|]. destruct F as [[a b] X]. exists d, a, b, X. auto.
  - unfold bind in H. destruct (solve_fields_nl e false None solver _ _ s) as [s2 [[F2 c2]|]] eqn:E2; [|discriminate]. injection H as <-.
    destruct (solve_nl_lin _ _ _ _ _ _ _ _ He Hq HA Hn E2) as (L2 & HS2 & d2 & HF2). split; [exact HS2|]. destruct F2 as [[a b] X]. exists d2, a, b, X. auto.
Qed.
Lemma point_scaled e solver x y s m t Wx Wy s2 s3 t2 t3 : solver_exact e -> (y <> 0)%R -> s_modes s = m :: t ->
  no_nonlinearity s -> nonsingular (s_M s) (s_A s) -> straight_solvable m s -> no_other_source m s ->
  (solver = "born" \/ solver = "newton" \/ solver = "hybrid") ->
  point_of e solver x s Wx s2 s3 -> point_of e solver y s Wy t2 t3 ->
  Wx = ((x / y) ^ 2 * Wy)%R /\
  forall dir c w, flux_probe dir c w true s3 =
    match flux_probe dir c w true t3 with Ok P => Ok ((x / y) ^ 2 * P)%R | Raise e => Raise e end.
Proof.
  intros He Hy EM Hq HA HW H0 Hn (m1 & t1 & M1 & A1 & V1 & B1) (m2 & t2' & M2 & A2 & V2 & B2).
  rewrite EM in M1, M2. injection M1 as <- <-. injection M2 as <- <-.
  assert (P1: exists dx, insert_mode e (with_scale m x) s (s_src s) = Ok dx /\ s2 = upd_src dx (upd_W_in Wx (upd_modes (with_scale m x :: t) s)) /\ compute_normalization e (with_scale m x) s = Ok Wx).
  { unfold setup_src in A1. rewrite norm_modes in A1. destruct (compute_normalization e (with_scale m x) s) as [W|] eqn:EW; [|discriminate]. cbv zeta in A1.
    change (s_src (upd_W_in W (upd_modes (with_scale m x :: t) s))) with (s_src s) in A1.
    change (insert_mode e (with_scale m x) (upd_W_in W (upd_modes (with_scale m x :: t) s)) (s_src s)) with (insert_mode e (with_scale m x) s (s_src s)) in A1.
    destruct (insert_mode e (with_scale m x) s (s_src s)) as [dx|]; [|discriminate]. injection A1 as <-. cbn [upd_src upd_W_in s_W_in] in V1. injection V1 as <-. exists dx. auto. }
  assert (P2: exists dy, insert_mode e (with_scale m y) s (s_src s) = Ok dy /\ t2 = upd_src dy (upd_W_in Wy (upd_modes (with_scale m y :: t) s)) /\ compute_normalization e (with_scale m y) s = Ok Wy).
  { unfold setup_src in A2. rewrite norm_modes in A2. destruct (compute_normalization e (with_scale m y) s) as [W|] eqn:EW; [|discriminate]. cbv zeta in A2.
    change (s_src (upd_W_in W (upd_modes (with_scale m y :: t) s))) with (s_src s) in A2.
    change (insert_mode e (with_scale m y) (upd_W_in W (upd_modes (with_scale m y :: t) s)) (s_src s)) with (insert_mode e (with_scale m y) s (s_src s)) in A2.
    destruct (insert_mode e (with_scale m y) s (s_src s)) as [dy|]; [|discriminate]. injection A2 as <-. cbn [upd_src upd_W_in s_W_in] in V2. injection V2 as <-. exists dy. auto. }
  destruct P1 as (dx & I1 & -> & N1). destruct P2 as (dy & I2 & -> & N2).
  split; [eapply norm_scaled; eassumption|].
  destruct (insert_scaled _ _ _ _ _ _ _ _ Hy I1 I2 H0) as (D1 & D2 & D3 & D4 & HS).
  destruct (scan_solve_lin e solver (upd_src dx (upd_W_in Wx (upd_modes (with_scale m x :: t) s))) s3 He Hq HA Hn B1) as (S1 & d1 & a1 & b1 & X1 & L1 & F1).
  destruct (scan_solve_lin e solver (upd_src dy (upd_W_in Wy (upd_modes (with_scale m y :: t) s))) t3 He Hq HA Hn B2) as (S2 & d2 & a2 & b2 & X2 & L2 & F2).
  assert (Hsz: nd_size (s_src s) = s_M s).
  { clear - B1 D1 D2 He Hq HA Hn.
    set (u := upd_src dx (upd_W_in Wx (upd_modes (with_scale m x :: t) s))) in *.
    destruct (Nat.eq_dec (nd_size (s_src s)) (s_M s)) as [E|NE]; [exact E|]. exfalso.
    assert (NE': nd_size (s_src u) <> s_M u) by (change (nd_size dx <> s_M s); unfold nd_size; rewrite D1, D2; exact NE).
    assert (NB: forall v G n thr, same_problem u v -> forall s' F l, born_loop e thr n G v <> (s', Ok (Some F, l))).
    { intros v G n thr HV s' F l Q. destruct n; [discriminate|]. cbn [born_loop] in Q.
      destruct (solve_fields e true false (compute_nl G v)) as [s2 [[[a b] X]|]] eqn:E; [|discriminate]. apply solve_fields_ok in E as (E & _).
      destruct (same_rhs _ _ HV) as (_ & EM & ES & _). apply NE'. rewrite <- EM, <- ES. exact E. }
    assert (BS: forall n thr s' F c, born_solve e None thr n false u <> (s', Ok (F, c))).
    { intros n thr s' F c Q. unfold born_solve in Q. destruct (start_field e _ None u) as [v [G|]] eqn:E; [|discriminate]. apply start_field_same in E.
      destruct (born_loop e thr n G v) as [s4 [[[F4|] l4]|]] eqn:E4; try discriminate. exact (NB _ _ _ _ E _ _ _ E4). }
    assert (NS: forall n thr s' F c, newton_solve e None thr n false u <> (s', Ok (F, c))).
    { intros n thr s' F c Q. unfold newton_solve in Q. destruct (s_pol u); [|discriminate]. destruct (start_field e _ None u) as [v [G|]] eqn:E; [|discriminate]. apply start_field_same in E.
      destruct (newton_loop e thr n G v) as [s4 [[E' l4]|]] eqn:E4; [|discriminate]. apply newton_loop_same in E4.
      destruct (solve_fields e true false (compute_nl E' s4)) as [s5 [[[a b] X]|]] eqn:E5; [|discriminate]. apply solve_fields_ok in E5 as (E5 & _).
      destruct (same_rhs _ _ (same_trans _ _ _ E E4)) as (_ & EM & ES & _). apply NE'. rewrite <- EM, <- ES. exact E5. }
    unfold scan_solve in B1. destruct (String.eqb_spec solver "hybrid") as [->|NH].
    - unfold solve_fields_nl, run_solver_nl in B1. change (String.eqb "born" "born") with true in B1. cbv iota in B1.
      destruct (born_solve e None (1 / 10 ^ 10) 100 false u) as [s4 [[F4 c4]|]] eqn:E4; [exact (BS _ _ _ _ _ E4)|discriminate].
    - unfold bind, solve_fields_nl, run_solver_nl in B1. destruct Hn as [->|[->|Q]]; [| |contradiction].
      + change (String.eqb "born" "born") with true in B1. cbv iota in B1.
        destruct (born_solve e None (1 / 10 ^ 10) 100 false u) as [s4 [[F4 c4]|]] eqn:E4; [exact (BS _ _ _ _ _ E4)|discriminate].
      + change (String.eqb "newton" "born") with false in B1. change (String.eqb "newton" "newton") with true in B1. cbv iota in B1.
        destruct (newton_solve e None (1 / 10 ^ 10) 100 false u) as [s4 [[F4 c4]|]] eqn:E4; [exact (NS _ _ _ _ _ E4)|discriminate]. }
  assert (LS := lin_fields_scaled (upd_src dx (upd_W_in Wx (upd_modes (with_scale m x :: t) s))) (upd_src dy (upd_W_in Wy (upd_modes (with_scale m y :: t) s))) (RtoC (x / y)) _ _ _ _ _ _ HA eq_refl eq_refl (fun _ => eq_refl)
    ltac:(intros k Hk; unfold rhs; cbn [upd_src upd_W_in upd_modes s_src s_omega]; rewrite (HS k ltac:(rewrite Hsz; exact Hk)); ring) L1 L2).
  unfold same_problem in S1, S2. cbn [upd_src upd_W_in upd_modes s_pol s_Nx s_Ny s_dl] in S1, S2, F1, F2.
  assert (G1: s_pol t3 = s_pol s) by intuition congruence. assert (G2: s_M t3 = s_M s) by (unfold s_M; intuition congruence).
  intros dir c w. eapply flux_scaled.
  - unfold same_grid. intuition congruence.
  - exists d2. unfold probe_fields. rewrite F2, G1. reflexivity.
  - exists d1. unfold probe_fields. rewrite F1, G1. reflexivity.
  - rewrite G2. exact LS.
Qed.
Lemma probes_scaled r ps : forall s t outs outt,
  (forall dir c w, flux_probe dir c w true s = match flux_probe dir c w true t with Ok P => Ok (r * P)%R | Raise e => Raise e end) ->
  probe_outputs (List.map (flux_of true) ps) s outs -> probe_outputs (List.map (flux_of true) ps) t outt -> outs = List.map (Rmult r) outt.
Proof.
  assert (INV: forall p q s l, probe_outputs (p :: q) s l -> exists s' W l', p s = (s', Ok W) /\ probe_outputs q s' l' /\ l = W :: l').
  { intros p q s l H. inversion H; subst. do 3 eexists. split; [eassumption|]. split; [eassumption|reflexivity]. }
  induction ps as [|p ps IH]; intros s t outs outt HF H1 H2; cbn [List.map] in H1, H2; [inversion H1; inversion H2; reflexivity|].
  apply INV in H1 as (s1 & V1 & l1 & E1 & Q1 & ->). apply INV in H2 as (s2 & V2 & l2 & E2 & Q2 & ->).
  unfold flux_of in E1, E2. injection E1 as <- E1. injection E2 as <- E2. rewrite HF, E2 in E1. injection E1 as <-.
  cbn [List.map]. f_equal. eapply IH; eassumption.
Qed.

(** Two points of a power scan of a device without nonlinearity: the input powers are in
    the ratio of the squared scales, and every transmission is the same. *)
Theorem C94_two_powers_same_transmission :
  forall e solver ps m t s x y Wx Wy lx ly,
  solver_exact e -> s_modes s = m :: t -> no_nonlinearity s -> no_other_source m s ->
  nonsingular (s_M s) (s_A s) -> straight_solvable m s ->
  (solver = "born" \/ solver = "newton" \/ solver = "hybrid") -> (0 < x)%R -> (0 < y)%R ->
  scan_point e (List.map (flux_of true) ps) solver x s = Ok (Wx, lx) ->
  scan_point e (List.map (flux_of true) ps) solver y s = Ok (Wy, ly) ->
  (Wx / x ^ 2 = Wy / y ^ 2)%R /\ lx = ly.
Proof.
  intros e solver ps m t s x y Wx Wy lx ly He EM Hq H0 HA HW Hn Hx Hy H1 H2.
  assert (Hy0: (y <> 0)%R) by lra.
  apply scan_point_spec in H1 as (s2 & s3 & o1 & P1 & O1 & ->). apply scan_point_spec in H2 as (t2 & t3 & o2 & P2 & O2 & ->).
  destruct (point_scaled _ _ _ _ _ _ _ _ _ _ _ _ _ He Hy0 EM Hq HA HW H0 Hn P1 P2) as [EW EF].
  split; [rewrite EW; field; repeat split; lra|]. rewrite (probes_scaled _ _ _ _ _ _ EF O1 O2), List.map_map. apply List.map_ext. intro a.
  assert (R0: (0 < (x / y) ^ 2)%R) by (apply pow_lt, Rdiv_lt_0_compat; assumption).
  unfold ratio. rewrite EW. set (r := ((x / y) ^ 2)%R) in *. destruct (Req_EM_T Wy 0) as [->|NZ].
  - destruct (Req_EM_T (r * 0) 0) as [|Q]; [reflexivity|]. exfalso; apply Q; ring.
  - destruct (Req_EM_T (r * Wy) 0) as [Q|_]; [apply Rmult_integral in Q as [Q|Q]; [lra|contradiction]|]. f_equal. field. repeat split; try assumption; lra.
Qed.

(** The whole scan: one transmission per probe, whatever the power. *)
Theorem C94_power_scan_is_flat :
  forall e solver ps Ns s_min s_max o m t s st' powers trans,
  solver_exact e -> s_modes s = m :: t -> no_nonlinearity s -> no_other_source m s ->
  nonsingular (s_M s) (s_A s) -> straight_solvable m s ->
  (solver = "born" \/ solver = "newton" \/ solver = "hybrid") ->
  scan_power e (Some (List.map (flux_of true) ps)) Ns s_min s_max solver (o, s) = (st', Ok (powers, trans)) ->
  forall k k', (k < Ns)%nat -> (k' < Ns)%nat ->
  (List.nth k powers 0 / scan_scale s_min s_max Ns k ^ 2 = List.nth k' powers 0 / scan_scale s_min s_max Ns k' ^ 2)%R /\
  forall p, (p < List.length ps)%nat -> List.nth k (List.nth p trans []) None = List.nth k' (List.nth p trans []) None.
Proof.
  intros e solver ps Ns s_min s_max o m t s st' powers trans He EM Hq H0 HA HW Hn H k k' Hk Hk'. unfold scan_power in H.
  destruct (Rlt_dec 0 s_min); [|discriminate]. destruct (Rlt_dec 0 s_max); [|discriminate].
  destruct (power_loop _ _ _ _ _) as [st1 [l|]] eqn:E; [|discriminate]. injection H as <- <- <-.
  apply power_loop_spec in E as [EL EP]. rewrite List.map_length, List.seq_length in EL, EP. cbn [snd] in EP.
  assert (ES: forall q, (q < Ns)%nat -> List.nth q (List.map (scan_scale s_min s_max Ns) (List.seq 0 Ns)) 0%R = scan_scale s_min s_max Ns q).
  { intros q Hq'. rewrite (List.nth_indep _ 0%R (scan_scale s_min s_max Ns 0)) by (rewrite List.map_length, List.seq_length; exact Hq').
    rewrite List.map_nth, List.seq_nth by exact Hq'. reflexivity. }
  assert (E1 := EP k Hk). assert (E2 := EP k' Hk'). rewrite ES in E1, E2 by assumption.
  destruct (List.nth k l (0%R, [])) as [Wk lk] eqn:N1. destruct (List.nth k' l (0%R, [])) as [Wk' lk'] eqn:N2.
  assert (PS: forall q, (0 < scan_scale s_min s_max Ns q)%R) by (intro q; unfold scan_scale, Rpower; apply exp_pos).
  destruct (C94_two_powers_same_transmission _ _ _ _ _ _ _ _ _ _ _ _ He EM Hq H0 HA HW Hn (PS k) (PS k') E1 E2) as [EW EQ].
  assert (NP: forall q, List.nth q (List.map fst l) 0%R = fst (List.nth q l (0%R, []))).
  { intro q. change 0%R with (fst (0%R, @nil (option R))) at 1. apply List.map_nth. }
  split; [rewrite !NP, N1, N2; exact EW|].
  intros p Hp. rewrite List.map_length. set (n := List.length ps) in *.
  rewrite (List.nth_indep _ [] (List.map (fun q : R * list (option R) => List.nth 0 (snd q) None) l)) by (rewrite List.map_length, List.seq_length; exact Hp).
  rewrite (List.map_nth (fun p0 => List.map (fun q : R * list (option R) => List.nth p0 (snd q) None) l)). rewrite List.seq_nth by exact Hp.
  change (0 + p)%nat with p.
  assert (NT: forall q, (q < Ns)%nat -> List.nth q (List.map (fun q0 : R * list (option R) => List.nth p (snd q0) None) l) None = List.nth p (snd (List.nth q l (0%R, []))) None).
  { intros q Hq'. rewrite (List.nth_indep _ None (List.nth p (snd (0%R, @nil (option R))) None)) by (rewrite List.map_length; lia).
    rewrite (List.map_nth (fun q0 : R * list (option R) => List.nth p (snd q0) None)). reflexivity. }
  rewrite !NT, N1, N2 by assumption. cbn [snd]. rewrite EQ. reflexivity.
Qed.

(* ------------------------------------------------------------------ *)
(** ** If one power can be computed, so can the others *)
Lemma insert_other e m x y s dest dx : insert_mode e (with_scale m x) s dest = Ok dx -> exists dy, insert_mode e (with_scale m y) s dest = Ok dy.
Proof.
  unfold insert_mode. cbn [with_scale md_normal md_center md_width md_order md_scale md_neff].
  destruct (line_inds _ _ _) as [[[[i0 i1] j0] j1]|]; [|discriminate]. cbv zeta.
  destruct (Nat.eqb _ 0); [discriminate|]. destruct (e_eigs _ _ _ _ _) as [v|]; [|discriminate].
  unfold nd_assign. destruct (String.eqb _ _); cbn [nd_nx nd_ny]; destruct (_ && _)%bool; try discriminate; intros _; eexists; reflexivity.
Qed.
Lemma norm_other e m x y s Wx : solver_exact e -> (x <> 0)%R -> straight_solvable m s -> no_other_source m s ->
  compute_normalization e (with_scale m x) s = Ok Wx -> exists Wy, compute_normalization e (with_scale m y) s = Ok Wy.
Proof.
  intros He Hx HN H0 H1. unfold compute_normalization in *.
  change (norm_structure (with_scale m x) (s_eps s)) with (norm_structure m (s_eps s)) in H1.
  change (norm_structure (with_scale m y) (s_eps s)) with (norm_structure m (s_eps s)).
  destruct (norm_structure m (s_eps s)) as [[eps c]|] eqn:EN; [|discriminate]. cbv zeta in *.
  change (s_src (set_eps eps s)) with (s_src s) in *.
  destruct (insert_mode e (with_scale m x) _ _) as [dx|] eqn:Ex; [|discriminate].
  destruct (insert_other _ _ _ y _ _ _ Ex) as [dy Ey]. rewrite Ey.
  destruct (solve_fields e false false (upd_src dx _)) as [tx [[[ax bx] X]|]] eqn:SX; [|discriminate].
  cbn [with_scale md_normal md_width] in *.
  destruct (insert_scaled _ _ _ _ _ _ _ _ Hx Ey Ex H0) as (D1 & D2 & D3 & D4 & HS).
  assert (HA := HN _ _ EN). set (u := set_eps eps s) in *.
  assert (Hsz: nd_size (s_src s) = s_M u).
  { apply solve_fields_ok in SX as (Q & _). change (nd_size dx = s_M u) in Q. rewrite <- Q. unfold nd_size. rewrite D3, D4. reflexivity. }
  destruct (solve_fields_lin e false (upd_src dy u)) as (Y & _ & SY).
  { change (nd_size dy = s_M u). rewrite <- Hsz. unfold nd_size. rewrite D1, D2. reflexivity. }
  cbv zeta in SY. set (D := derived_fields _ _ _ _) in SY. rewrite SY.
  assert (LX: lin_fields (upd_src dx u) (ax, bx, X)) by (eapply lin_fields_lin; [exact He|exact HA|exact SX]).
  assert (LY: lin_fields (upd_src dy u) (fst D, snd D, Y)) by (eapply lin_fields_lin; [exact He|exact HA|exact SY]).
  assert (LS := lin_fields_scaled (upd_src dy u) (upd_src dx u) (RtoC (y / x)) _ _ _ _ _ _ HA eq_refl eq_refl (fun _ => eq_refl)
    ltac:(intros k Hk; unfold rhs; cbn [upd_src s_src s_omega]; rewrite (HS k ltac:(rewrite Hsz; exact Hk)); ring) LY LX).
  assert (SX' := SX).
  apply solve_fields_lin_state in SX' as (_ & [(? & _)|(_ & X' & _ & F1 & R1)]); [discriminate|]. cbv zeta in *. injection R1 as -> -> ->.
  assert (G1 := solve_fields_same e false false (upd_src dx u)). rewrite SX in G1. cbn [fst] in G1.
  set (ty := upd_fields _ (upd_src dy u)).
  assert (Q: flux_probe (md_normal m) c (md_width m) false ty = match flux_probe (md_normal m) c (md_width m) false tx with Ok P => Ok ((y / x) ^ 2 * P)%R | Raise x => Raise x end).
  { unfold same_problem in G1. cbn [upd_src s_pol s_Nx s_Ny s_dl] in G1.
    assert (P1: s_pol tx = s_pol u) by intuition congruence. assert (P2: s_M tx = s_M u) by (unfold s_M; intuition congruence).
    eapply flux_scaled.
    - unfold same_grid. change (s_pol ty) with (s_pol u). change (s_Nx ty) with (s_Nx u). change (s_Ny ty) with (s_Ny u). change (s_dl ty) with (s_dl u). intuition congruence.
    - exists (s_fields (upd_src dx u)). unfold probe_fields. rewrite F1, P1. reflexivity.
    - exists (s_fields (upd_src dy u)). unfold probe_fields. rewrite P1. reflexivity.
    - rewrite P2. exact LS. }
  rewrite H1 in Q. rewrite Q. eexists. reflexivity.
Qed.
Lemma run_probes_outputs W ps : forall s outs, probe_outputs ps s outs -> exists s' l, run_probes W ps s = (s', Ok l).
Proof.
  intros s outs H. induction H as [s|p q s s' V l HP HO (s2 & l2 & IH)]; [do 2 eexists; reflexivity|].
  cbn [run_probes]. unfold bind. rewrite HP, IH. do 2 eexists. reflexivity.
Qed.
Theorem C94_every_power_can_be_computed :
  forall e ps m t s x y Wx lx,
  solver_exact e -> s_modes s = m :: t -> no_nonlinearity s -> no_other_source m s ->
  nonsingular (s_M s) (s_A s) -> straight_solvable m s -> (0 < x)%R -> (0 < y)%R ->
  scan_point e (List.map (flux_of true) ps) "born" x s = Ok (Wx, lx) ->
  scan_point e (List.map (flux_of true) ps) "born" y s = Ok ((y / x) ^ 2 * Wx, lx)%R.
Proof.
  intros e ps m t s x y Wx lx He EM Hq H0 HA HW Hx Hy H1.
  enough (EX: exists Wy ly, scan_point e (List.map (flux_of true) ps) "born" y s = Ok (Wy, ly)).
  { destruct EX as (Wy & ly & H2).
    destruct (C94_two_powers_same_transmission e "born" ps m t s x y Wx Wy lx ly He EM Hq H0 HA HW (or_introl eq_refl) Hx Hy H1 H2) as [EW ->].
    rewrite H2. do 2 f_equal. apply (f_equal (fun r => y ^ 2 * r)%R) in EW. 
    replace Wy with (y ^ 2 * (Wy / y ^ 2))%R by (field; lra). rewrite <- EW. field. lra. }
  assert (H1' := H1). apply scan_point_spec in H1' as (s2 & s3 & outs & (m1 & t1 & M1 & A1 & V1 & B1) & PO & _).
  rewrite EM in M1. injection M1 as <- <-.
  assert (P1: exists dx, insert_mode e (with_scale m x) s (s_src s) = Ok dx /\ s2 = upd_src dx (upd_W_in Wx (upd_modes (with_scale m x :: t) s)) /\ compute_normalization e (with_scale m x) s = Ok Wx).
  { unfold setup_src in A1. rewrite norm_modes in A1. destruct (compute_normalization e (with_scale m x) s) as [W|] eqn:EW; [|discriminate]. cbv zeta in A1.
    change (s_src (upd_W_in W (upd_modes (with_scale m x :: t) s))) with (s_src s) in A1.
    change (insert_mode e (with_scale m x) (upd_W_in W (upd_modes (with_scale m x :: t) s)) (s_src s)) with (insert_mode e (with_scale m x) s (s_src s)) in A1.
    destruct (insert_mode e (with_scale m x) s (s_src s)) as [dx|]; [|discriminate]. injection A1 as <-. cbn [upd_src upd_W_in s_W_in] in V1. injection V1 as <-. exists dx. auto. }
  destruct P1 as (dx & I1 & ES2 & N1).
  destruct (norm_other _ _ _ y _ _ He (Rgt_not_eq _ _ Hx) HW H0 N1) as [Wy N2]. destruct (insert_other _ _ _ y _ _ _ I1) as [dy I2].
  set (u := upd_src dy (upd_W_in Wy (upd_modes (with_scale m y :: t) s))).
  assert (A2: setup_src e (with_scale m y) (upd_modes (with_scale m y :: t) s) = (u, Ok tt)).
  { unfold setup_src. rewrite norm_modes, N2. cbv zeta.
    change (s_src (upd_W_in Wy (upd_modes (with_scale m y :: t) s))) with (s_src s).
    change (insert_mode e (with_scale m y) (upd_W_in Wy (upd_modes (with_scale m y :: t) s)) (s_src s)) with (insert_mode e (with_scale m y) s (s_src s)).
    rewrite I2. reflexivity. }
  destruct (insert_scaled _ _ _ _ _ _ _ _ ltac:(apply Rgt_not_eq; exact Hx) I2 I1 H0) as (D1 & D2 & D3 & D4 & HS).
  assert (HB: exists s4, scan_solve e "born" u = (s4, Ok tt)).
  { unfold scan_solve in *. change (String.eqb "born" "hybrid") with false in *. cbv iota in *.
    unfold bind, solve_fields_nl, run_solver_nl in *. change (String.eqb "born" "born") with true in *. cbv iota in *.
    destruct (born_solve e None (1 / 10 ^ 10) 100 false s2) as [s5 [[F5 c5]|]] eqn:E5; [|discriminate].
    assert (Hsz: nd_size (s_src s2) = s_M s2).
    { unfold born_solve in E5. destruct (start_field e _ None s2) as [v [G|]] eqn:E; [|discriminate]. apply start_field_same in E. change 100%nat with (S 99) in E5. cbn [born_loop] in E5.
      destruct (solve_fields e true false (compute_nl G v)) as [s6 [[[a b] X]|]] eqn:E6; [|discriminate]. apply solve_fields_ok in E6 as (E6 & _).
      destruct (same_rhs _ _ E) as (_ & Em & Es & _). rewrite <- Em, <- Es. exact E6. }
    destruct (born_solve_runs e None (1 / 10 ^ 10)%R 100 false u) as (s6 & F6 & c6 & -> & _); [|lia|eexists; reflexivity].
    rewrite ES2 in Hsz. change (nd_size dx = s_M s) in Hsz. change (nd_size dy = s_M s). rewrite <- Hsz. unfold nd_size. congruence. }
  destruct HB as [s4 B2].
  assert (PT: point_of e "born" y s Wy u s4) by (exists m, t; repeat split; assumption).
  assert (PX: point_of e "born" x s Wx s2 s3) by (exists m, t; repeat split; assumption).
  destruct (point_scaled e "born" y x s m t _ _ _ _ _ _ He (Rgt_not_eq _ _ Hx) EM Hq HA HW H0 (or_introl eq_refl) PT PX) as [_ EF].
  assert (PO2: exists outs2, probe_outputs (List.map (flux_of true) ps) s4 outs2).
  { clear - PO EF. revert outs PO. induction ps as [|p ps IH]; intros outs PO; [exists []; constructor|].
    cbn [List.map] in PO |- *. inversion PO as [|? ? ? s' V l HP HO]; subst. unfold flux_of in HP at 1. injection HP as <- HP.
    destruct (IH _ HO) as [o2 O2]. exists ((y / x) ^ 2 * V :: o2)%R. econstructor; [|exact O2]. unfold flux_of. rewrite EF, HP. reflexivity. }
  destruct PO2 as [o2 PO2]. destruct (run_probes_outputs Wy _ _ _ PO2) as (s6 & l6 & E6).
  exists Wy, l6. unfold scan_point. rewrite EM. cbv zeta. rewrite A2. change (s_W_in u) with (Val Wy). cbv iota. rewrite B2, E6. reflexivity.
Qed.

(* ------------------------------------------------------------------ *)
(** ** A waveguide of 9 x 6 pixels without nonlinearity, a mode on column 2 and a probe on
    column 5: the point of scale 1 can be computed, hence those of all scales. *)
Example C94_met :
  exists e m t s W l p, reachable e s /\ solver_exact e /\ s_modes s = m :: t /\ no_nonlinearity s /\ no_other_source m s /\
    nonsingular (s_M s) (s_A s) /\ straight_solvable m s /\
    (exists s2 s3, point_of e "born" 1 s W s2 s3 /\ nd_at (s_src s3) 2 2 <> RtoC 0) /\
    scan_point e (List.map (flux_of true) [p]) "born" 1 s = Ok (W, l).
Proof.
  destruct (fam_sim_ok "Ez" 9 6 0 0 two_eps (or_introl eq_refl)) as [s0 HS].
  destruct (fam_plain _ _ _ _ HS ltac:(lia) ltac:(lia) ltac:(intros; unfold two_eps; lra)) as (_ & HR & HN & _).
  destruct (fam_basic _ _ _ _ HS) as (Hp & Hd & HL & Ho & Ex & Ey & Ee & Es & HQ).
  destruct (uniform_straight 9 s0 HS ltac:(lia)) as (PT & NT & T1 & T2).
  destruct (uniform_mode_set_up (/ sqrt 3) 9 s0 (s_src s0) ltac:(rewrite <- third; unfold Rsqr; ring) HS ltac:(lia) ltac:(rewrite Es; reflexivity) ltac:(rewrite Es; reflexivity)) as (s1 & ? & ? & ? & ? & W & R1 & V1 & _ & _ & _ & _ & W1 & _).
  assert (ES: upd_src (s_src s0) s0 = s0) by (destruct s0; reflexivity). rewrite ES in R1.
  set (e := sign_env (fun _ => RtoC (/ sqrt 3))) in *.
  assert (Hm: s_modes s0 = [] /\ s_nl s0 = []). { unfold fam_sim, Simulation in HS. destruct (check_inputs _ _ _ _); [|discriminate]. injection HS as <-. auto. }
  destruct Hm as [Hm Hnl].
  set (s := upd_modes [mid_mode] s0).
  assert (R: reachable e s).
  { destruct (HR e) as (om & ep & dl & np & p & L & t & l & Q1 & Q2 & Q3 & Q4 & Q5).
    exists om, ep, dl, np, p, L, t, (l ++ [AddMode mid_mode])%list. repeat split; try assumption.
    assert (G: forall a b t, run_ops e (a ++ b)%list t = run_ops e b (run_ops e a t)) by (intros; unfold run_ops; apply fold_left_app).
    rewrite !G, <- Q5. cbn. rewrite Hm. reflexivity. }
  assert (S2: setup_src e mid_mode s = (upd_modes [mid_mode] s1, Ok tt)).
  { assert (Q := setup_transfer e mid_mode [mid_mode] (s_fields s0) s0 s1 R1).
    replace (upd_fields (s_fields s0) s0) with s0 in Q by (destruct s0; reflexivity).
    replace (upd_fields (s_fields s0) s1) with s1 in Q; [exact Q|].
    apply setup_keeps in R1 as (<- & _). destruct s1; reflexivity. }
  set (s2 := upd_modes [mid_mode] s1) in *.
  assert (SZ: nd_size (s_src s2) = s_M s2).
  { assert (H1 := C55_only_the_line_is_written _ _ _ _ R1 0%nat 0%nat ltac:(rewrite Es; cbn; lia) ltac:(rewrite Es; cbn; lia)). destruct H1 as (N1 & N2 & _).
    assert (R1' := R1). apply setup_keeps in R1' as (_ & EM & _). change (nd_size (s_src s1) = s_M s1). rewrite EM. unfold nd_size, s_M. rewrite N1, N2, Es, Ex, Ey. reflexivity. }
  destruct (born_solve_runs e None (1 / 10 ^ 10)%R 100 false s2 SZ ltac:(lia)) as (s3 & FF & conv & HB & HP).
  set (s4 := upd_fields_nl (store3 (s_pol s3) (s_fields_nl s3) FF) s3).
  assert (K: scan_solve e "born" s2 = (s4, Ok tt)).
  { unfold scan_solve. change (String.eqb "born" "hybrid") with false. cbn iota. unfold bind, solve_fields_nl, run_solver_nl. change (String.eqb "born" "born") with true. cbn iota.
    rewrite HB. reflexivity. }
  assert (D: s_Nx s1 = 9%nat /\ s_Ny s1 = 6%nat /\ s_pol s1 = PolEz).
  { apply setup_src_inv in R1 as (_ & _ & _ & _ & _ & _ & _ & _ & _ & V & _ & ->). auto. }
  assert (D4: s_Nx s4 = 9%nat /\ s_Ny s4 = 6%nat /\ s_pol s4 = PolEz /\ s_src s4 = s_src s1 /\ s_fields_nl s4 = store3 PolEz (s_fields_nl s3) FF).
  { unfold same_problem in HP. unfold s2 in HP. cbn [upd_modes s_Nx s_Ny s_pol s_src] in HP. unfold s4. cbn [upd_fields_nl s_Nx s_Ny s_pol s_src s_fields_nl].
    assert (s_pol s3 = PolEz) as -> by intuition congruence. intuition congruence. }
  destruct D4 as (X4 & Y4 & P4 & R4 & F4). destruct FF as [[fa fb] fz].
  assert (FX := flux_x_inside s4 true fz fb 5 3 3 1 4 ltac:(cbv iota; rewrite P4, F4; reflexivity) ltac:(cbv iota; rewrite P4, F4; reflexivity) eq_refl eq_refl ltac:(lia) ltac:(rewrite X4; lia) ltac:(lia) ltac:(rewrite Y4; lia)).
  set (V := (s_dl s4 * _)%R) in FX.
  exists e, mid_mode, [], s, W, [ratio V W], ("x", (5, 3)%Z, 3%Z).
  split; [exact R|]. split; [apply sign_env_exact|]. split; [reflexivity|].
  split. { intros q Hq. change (s_nl s) with (s_nl s0) in Hq. rewrite Hnl in Hq. destruct Hq. }
  split. { intros i j _ _ _. change (s_src s) with (s_src s0). rewrite Es. reflexivity. }
  split; [exact HN|].
  split.
  { intros eps c EN. change (s_eps s) with (s_eps s0) in EN. unfold norm_structure in EN. change (md_normal mid_mode) with "x" in EN. change (String.eqb "x" "x") with true in EN. cbn iota in EN.
    change (fst (md_center mid_mode)) with 2%Z in EN. unfold py_index in EN. rewrite Ee in EN. cbn [nd_nx nd_ny] in EN.
    change ((- Z.of_nat 9 <=? 2)%Z && (2 <? Z.of_nat 9)%Z)%bool with true in EN. cbn iota in EN. change (2 <? 0)%Z with false in EN. cbn iota in EN. change (Z.to_nat 2) with 2%nat in EN.
    injection EN as <- _. match goal with |- nonsingular (s_M (set_eps ?a s)) _ => change (nonsingular (s_M (set_eps a s0)) (s_A (set_eps a s0))) end.
    replace (set_eps _ s0) with (norm_sim mid_mode s0 2); [exact NT|]. unfold norm_sim. rewrite Ex, Ey, Ee. reflexivity. }
  split.
  { exists s2, s4. split; [exists mid_mode, []; repeat split; [exact S2|exact W1|exact K]|]. rewrite R4.
    rewrite V1 by lia. unfold mode_profile. intro Q. apply (f_equal Re) in Q. cbn [Re RtoC fst] in Q.
    assert (P: (0 < / sqrt 3)%R) by (apply Rinv_0_lt_compat, sqrt_lt_R0; lra).
    rewrite Cmod_mult, !Cmod_R, Rabs_R1 in Q. autorewrite with reim in Q. cbn [Re Im RtoC fst snd] in Q.
    replace (/ sqrt 3 * 1 - 0 * 0)%R with (/ sqrt 3)%R in Q by ring.
    destruct (np_sign_cases (/ sqrt 3)) as [[? E]|[[? E]|[? E]]]; try lra. rewrite E, Rabs_pos_eq in Q by lra. lra. }
  unfold scan_point. change (s_modes s) with [mid_mode]. cbv iota zeta. change (upd_modes [with_scale mid_mode 1] s) with s. change (with_scale mid_mode 1) with mid_mode.
  rewrite S2. change (s_W_in s2) with (s_W_in s1). rewrite W1, K. cbn [List.map run_probes]. unfold bind, flux_of. cbn [fst snd]. rewrite FX. reflexivity.
Qed.
