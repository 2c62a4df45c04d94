(** C86: several mode sources. *)
From Coq Require Import Reals Lra Lia List ZArith Arith Bool String ClassicalEpsilon.
From Coquelicot Require Import Coquelicot.
From Verif Require Import Base Linear MCore MSim MFilter MOpt MMode Spec PCore PSim PEx PExOpt PMode PropsCore PropsSolve PropsLin PropsOpt3 PropsFlux PropsMode.
Import ListNotations.
Local Open Scope string_scope.

(** the part of the simulation that a mode source reads: everything but source and input power *)
Definition same_but_source (s s' : sim) : Prop := exists src W, s' = upd_src src (upd_W_in W s).
Lemma sbs_refl W s : s_W_in s = Val W -> same_but_source s s.
Proof. intro H. exists (s_src s), W. destruct s; cbn in *; subst; reflexivity. Qed.
Lemma sbs_trans s s' s'' : same_but_source s s' -> same_but_source s' s'' -> same_but_source s s''.
Proof. intros (a & W & ->) (b & V & ->). exists b, V. reflexivity. Qed.
Lemma setup_sbs e m s s' : setup_src e m s = (s', Ok tt) -> same_but_source s s'.
Proof. intro H. apply setup_src_inv in H as (_ & _ & _ & _ & _ & _ & _ & _ & _ & W & _ & E). exists (s_src s'), W. exact E. Qed.
Lemma setup_shape e m s s' : setup_src e m s = (s', Ok tt) -> nd_nx (s_src s') = nd_nx (s_src s) /\ nd_ny (s_src s') = nd_ny (s_src s).
Proof.
  intro H. apply setup_src_inv in H as (i0 & i1 & j0 & j1 & v & _ & _ & _ & EA & _). cbv zeta in EA.
  unfold nd_assign in EA. destruct (_ && _)%bool; [|discriminate]. injection EA as <-. auto.
Qed.
(** what a mode writes on its line depends neither on the source nor on the input power *)
Definition same_line_data (a b : sim) : Prop :=
  s_eps a = s_eps b /\ mode_matrix a = mode_matrix b /\ s_omega a = s_omega b /\ s_L0 a = s_L0 b.
Lemma setup_line_value e m a b sa sb i j :
  same_line_data a b -> nd_nx (s_src a) = nd_nx (s_src b) -> nd_ny (s_src a) = nd_ny (s_src b) -> (j < nd_ny (s_src a))%nat ->
  setup_src e m a = (sa, Ok tt) -> setup_src e m b = (sb, Ok tt) ->
  on_line m (nd_nx (s_src a)) (nd_ny (s_src a)) i j -> nd_at (s_src sa) i j = nd_at (s_src sb) i j.
Proof.
  intros (B1 & B2 & B3 & B4) Ex Ey Hj H1 H2 HO.
  apply setup_src_inv in H1 as (i0 & i1 & j0 & j1 & v & EL & HZ & EE & EA & _). cbv zeta in *.
  apply setup_src_inv in H2 as (i0' & i1' & j0' & j1' & v' & EL' & HZ' & EE' & EA' & _). cbv zeta in *.
  rewrite EL in EL'. injection EL' as <- <- <- <-.
  rewrite B1, B2, B3, B4, EE' in EE. injection EE as <-. rewrite B1 in EA.
  apply (line_inds_on m _ _ i j _ _ _ _ EL) in HO.
  destruct (assign_at _ _ _ _ _ _ _ i j EA Hj) as (_ & _ & P & _). rewrite (P HO).
  rewrite Ey in Hj. rewrite Ex, Ey in HO. destruct (assign_at _ _ _ _ _ _ _ i j EA' Hj) as (_ & _ & P' & _). rewrite (P' HO), Ex, Ey. reflexivity.
Qed.

Lemma setup_list_cons e m l s s' : setup_list e (m :: l) s = (s', Ok tt) ->
  exists s1, setup_src e m s = (s1, Ok tt) /\ setup_list e l s1 = (s', Ok tt).
Proof.
  cbn [setup_list]. unfold bind. destruct (setup_src e m s) as [s1 [[]|x]]; [|discriminate]. intro H. exists s1. auto.
Qed.
Lemma setup_list_app e l1 : forall l2 s s', setup_list e (l1 ++ l2) s = (s', Ok tt) ->
  exists s1, setup_list e l1 s = (s1, Ok tt) /\ setup_list e l2 s1 = (s', Ok tt).
Proof.
  induction l1 as [|m l1 IH]; intros l2 s s' H; [exists s; auto|]. cbn [List.app] in H.
  apply setup_list_cons in H as (s1 & H1 & H2). apply IH in H2 as (s2 & H2 & H3). exists s2. split; [|exact H3].
  cbn [setup_list]. unfold bind. rewrite H1. exact H2.
Qed.
Lemma setup_list_facts e l : forall s s', setup_list e l s = (s', Ok tt) ->
  (same_but_source s s' \/ s' = s) /\ nd_nx (s_src s') = nd_nx (s_src s) /\ nd_ny (s_src s') = nd_ny (s_src s) /\
  forall i j, (i < nd_nx (s_src s))%nat -> (j < nd_ny (s_src s))%nat ->
    (forall m, In m l -> ~ on_line m (nd_nx (s_src s)) (nd_ny (s_src s)) i j) -> nd_at (s_src s') i j = nd_at (s_src s) i j.
Proof.
  induction l as [|m l IH]; intros s s' H; [injection H as <-; repeat split; auto|].
  apply setup_list_cons in H as (s1 & H1 & H2). destruct (setup_shape _ _ _ _ H1) as [X1 Y1].
  destruct (IH _ _ H2) as (S2 & X2 & Y2 & V2). split; [|split; [congruence|split; [congruence|]]].
  - left. assert (S1 := setup_sbs _ _ _ _ H1). destruct S2 as [S2| ->]; [eapply sbs_trans; eassumption|exact S1].
  - intros i j Hi Hj HN. rewrite X1, Y1 in V2. rewrite V2; [|assumption|assumption|intros m' Hm'; apply HN; right; exact Hm'].
    apply (C55_only_the_line_is_written e m s s1 H1 i j Hi Hj). apply HN. left. reflexivity.
Qed.

(** Setting up all modes changes the source and the input power only, and the source only on
    the lines of the modes. *)
Theorem C86_pixels_on_no_line_keep_their_source :
  forall e s s', setup_modes e s = (s', Ok tt) ->
  (s' = s \/ exists W, s' = upd_src (s_src s') (upd_W_in W s)) /\
  nd_nx (s_src s') = nd_nx (s_src s) /\ nd_ny (s_src s') = nd_ny (s_src s) /\
  forall i j, (i < nd_nx (s_src s))%nat -> (j < nd_ny (s_src s))%nat ->
    (forall m, In m (s_modes s) -> ~ on_line m (nd_nx (s_src s)) (nd_ny (s_src s)) i j) -> nd_at (s_src s') i j = nd_at (s_src s) i j.
Proof.
  intros e s s' H. destruct (setup_list_facts e _ s s' H) as (S1 & X1 & Y1 & V1). split; [|auto].
  destruct S1 as [(a & W & ->)| ->]; [right; exists W; reflexivity|auto].
Qed.

(** On every line the mode added last wins: a pixel on the line of a mode and on no line of a mode
    added later holds what that mode alone writes there, whatever the source was. *)
Theorem C86_last_added_mode_wins :
  forall e s s' l1 m l2 i j, setup_modes e s = (s', Ok tt) -> s_modes s = (l1 ++ m :: l2)%list ->
  (i < nd_nx (s_src s))%nat -> (j < nd_ny (s_src s))%nat ->
  on_line m (nd_nx (s_src s)) (nd_ny (s_src s)) i j ->
  (forall m', In m' l2 -> ~ on_line m' (nd_nx (s_src s)) (nd_ny (s_src s)) i j) ->
  (exists s0 s1, setup_list e l1 s = (s0, Ok tt) /\ setup_src e m s0 = (s1, Ok tt) /\ nd_at (s_src s') i j = nd_at (s_src s1) i j) /\
  forall src s1, nd_nx src = nd_nx (s_src s) -> nd_ny src = nd_ny (s_src s) ->
    setup_src e m (upd_src src s) = (s1, Ok tt) -> nd_at (s_src s') i j = nd_at (s_src s1) i j.
Proof.
  intros e s s' l1 m l2 i j H Hl Hi Hj HO HN. unfold setup_modes in H. rewrite Hl in H.
  apply setup_list_app in H as (s0 & H0 & H). apply setup_list_cons in H as (s1 & H1 & H2).
  destruct (setup_list_facts _ _ _ _ H0) as (S0 & X0 & Y0 & _). destruct (setup_shape _ _ _ _ H1) as [X1 Y1].
  destruct (setup_list_facts _ _ _ _ H2) as (S2 & X2 & Y2 & V2).
  assert (E: nd_at (s_src s') i j = nd_at (s_src s1) i j).
  { apply V2; rewrite ?X1, ?Y1, ?X0, ?Y0; assumption. }
  split; [exists s0, s1; auto|]. intros src t Ex Ey HT. rewrite E.
  apply (setup_line_value e m s0 (upd_src src s) s1 t i j); try assumption.
  - destruct S0 as [(a & W & ->)| ->]; repeat split.
  - cbn [upd_src s_src]. congruence.
  - cbn [upd_src s_src]. congruence.
  - rewrite Y0. exact Hj.
  - rewrite X0, Y0. exact HO.
Qed.

(** The input power left in the simulation is the one of the mode added last, measured with the
    sources of the earlier modes in place. *)
Theorem C86_input_power_of_the_last_mode :
  forall e s s' l m, setup_modes e s = (s', Ok tt) -> s_modes s = (l ++ [m])%list ->
  exists s0 W, setup_list e l s = (s0, Ok tt) /\ compute_normalization e m s0 = Ok W /\ s_W_in s' = Val W.
Proof.
  intros e s s' l m H Hl. unfold setup_modes in H. rewrite Hl in H. apply setup_list_app in H as (s0 & H0 & H).
  apply setup_list_cons in H as (s1 & H1 & H2). injection H2 as <-.
  apply setup_src_inv in H1 as (_ & _ & _ & _ & _ & _ & _ & _ & _ & W & K & E). exists s0, W. split; [exact H0|]. split; [exact K|]. rewrite E. reflexivity.
Qed.

(** Modes on separate lines add up: starting from no source, the source of all of them is at every
    pixel the sum of the sources that each of them sets up alone. *)
Definition separate (s : sim) (m m' : mode) : Prop :=
  forall i j, ~ (on_line m (nd_nx (s_src s)) (nd_ny (s_src s)) i j /\ on_line m' (nd_nx (s_src s)) (nd_ny (s_src s)) i j).
Definition source_sum (ds : list sim) (i j : nat) : C := List.fold_right (fun d acc => (nd_at (s_src d) i j + acc)%C) (RtoC 0) ds.
Theorem C86_separate_modes_add_up :
  forall e s s' ds, setup_modes e s = (s', Ok tt) ->
  (forall i j, nd_at (s_src s) i j = RtoC 0) ->
  List.ForallOrdPairs (separate s) (s_modes s) ->
  List.Forall2 (fun m d => setup_src e m s = (d, Ok tt)) (s_modes s) ds ->
  forall i j, (i < nd_nx (s_src s))%nat -> (j < nd_ny (s_src s))%nat -> nd_at (s_src s') i j = source_sum ds i j.
Proof.
  intros e s s' ds H Hz Hsep HF i j Hi Hj. set (Nx := nd_nx (s_src s)) in *. set (Ny := nd_ny (s_src s)) in *.
  assert (OFF: forall l ds', List.Forall2 (fun m d => setup_src e m s = (d, Ok tt)) l ds' -> (forall m, In m l -> ~ on_line m Nx Ny i j) -> source_sum ds' i j = RtoC 0).
  { intros l ds' HF'. induction HF' as [|m d l ds' Hd _ IH]; intro HN; [reflexivity|]. cbn [source_sum List.fold_right].
    fold (source_sum ds' i j). rewrite IH by (intros m' Hm'; apply HN; right; exact Hm').
    destruct (C55_only_the_line_is_written e m s d Hd i j Hi Hj) as (_ & _ & _ & V). rewrite V, Hz by (apply HN; left; reflexivity). ring. }
  assert (G: forall l ds' s0, setup_list e l s0 = (s', Ok tt) -> same_line_data s0 s -> nd_nx (s_src s0) = Nx -> nd_ny (s_src s0) = Ny ->
     List.ForallOrdPairs (separate s) l -> List.Forall2 (fun m d => setup_src e m s = (d, Ok tt)) l ds' ->
     ((exists m, In m l /\ on_line m Nx Ny i j) -> nd_at (s_src s') i j = source_sum ds' i j) /\
     ((forall m, In m l -> ~ on_line m Nx Ny i j) -> nd_at (s_src s') i j = nd_at (s_src s0) i j)).
  { induction l as [|m l IH]; intros ds' s0 H0 HD X0 Y0 HS HF'.
    - injection H0 as <-. split; [intros (m & [] & _)|reflexivity].
    - inversion HF' as [|m' d l' ds'' Hd HF2]; subst. inversion HS as [|m' l' Hm HS2]; subst. clear HF' HS.
      apply setup_list_cons in H0 as (s1 & H1 & H2). destruct (setup_shape _ _ _ _ H1) as [X1 Y1].
      assert (HD1: same_line_data s1 s).
      { destruct (setup_sbs _ _ _ _ H1) as (a & W & ->). exact HD. }
      destruct (IH ds'' s1 H2 HD1 ltac:(congruence) ltac:(congruence) HS2 HF2) as [I1 I2].
      assert (V1 := C55_only_the_line_is_written e m s0 s1 H1 i j ltac:(rewrite X0; exact Hi) ltac:(rewrite Y0; exact Hj)). rewrite X0, Y0 in V1. destruct V1 as (_ & _ & _ & V1).
      split.
      + intros (q & [<-|Hq] & HO); cbn [source_sum List.fold_right]; fold (source_sum ds'' i j).
        * assert (HN: forall m', In m' l -> ~ on_line m' Nx Ny i j).
          { intros m' Hm' Q. rewrite List.Forall_forall in Hm. exact (Hm m' Hm' i j (conj HO Q)). }
          rewrite (OFF l ds'' HF2 HN), (I2 HN), Cplus_0_r.
          apply (setup_line_value e m s0 s s1 d i j HD X0 Y0 ltac:(rewrite Y0; exact Hj) H1 Hd). rewrite X0, Y0. exact HO.
        * rewrite I1 by (exists q; auto). destruct (C55_only_the_line_is_written e m s d Hd i j Hi Hj) as (_ & _ & _ & V).
          rewrite V, Hz by (intro Q; rewrite List.Forall_forall in Hm; exact (Hm q Hq i j (conj Q HO))). ring.
      + intro HN. rewrite I2 by (intros m' Hm'; apply HN; right; exact Hm'). apply V1, HN. left. reflexivity. }
  destruct (G (s_modes s) ds s H ltac:(repeat split) eq_refl eq_refl Hsep HF) as [G1 G2].
  destruct (excluded_middle_informative (exists m, In m (s_modes s) /\ on_line m Nx Ny i j)) as [Q|Q]; [exact (G1 Q)|].
  assert (HN: forall m, In m (s_modes s) -> ~ on_line m Nx Ny i j) by (intros m Hm HO; apply Q; exists m; auto).
  rewrite (G2 HN), (OFF _ _ HF HN), Hz. reflexivity.
Qed.

(** Two modes on neighbouring lines, added one after the other. *)
Lemma norm_W e m W s : compute_normalization e m (upd_W_in W s) = compute_normalization e m s.
Proof.
  unfold compute_normalization. change (s_eps (upd_W_in W s)) with (s_eps s). destruct (norm_structure m (s_eps s)) as [[eps c]|x]; [|reflexivity]. cbv zeta.
  change (s_src (set_eps eps (upd_W_in W s))) with (s_src (set_eps eps s)).
  change (insert_mode e m (set_eps eps (upd_W_in W s))) with (insert_mode e m (set_eps eps s)).
  destruct (insert_mode e m (set_eps eps s) (s_src (set_eps eps s))) as [src|x]; [|reflexivity].
  unfold solve_fields. cbn -[solver_direct derived_fields flux_probe].
  change (s_M (upd_src src (set_eps eps (upd_W_in W s)))) with (s_M (upd_src src (set_eps eps s))).
  change (rhs (upd_src src (set_eps eps (upd_W_in W s)))) with (rhs (upd_src src (set_eps eps s))).
  destruct (negb _); [reflexivity|]. destruct (solver_direct _ _ _ _ _) as [z|x]; [|reflexivity].
  change (derived_fields (upd_src src (set_eps eps (upd_W_in W s)))) with (derived_fields (upd_src src (set_eps eps s))).
  destruct (derived_fields _ _ _ _) as [a b]. unfold flux_probe. reflexivity.
Qed.
Lemma norm_modes e m l s : compute_normalization e m (upd_modes l s) = compute_normalization e m s.
Proof.
  unfold compute_normalization. change (s_eps (upd_modes l s)) with (s_eps s). destruct (norm_structure m (s_eps s)) as [[eps c]|x]; [|reflexivity]. cbv zeta.
  change (s_src (set_eps eps (upd_modes l s))) with (s_src (set_eps eps s)).
  change (insert_mode e m (set_eps eps (upd_modes l s))) with (insert_mode e m (set_eps eps s)).
  destruct (insert_mode e m (set_eps eps s) (s_src (set_eps eps s))) as [src|x]; [|reflexivity].
  unfold solve_fields. cbn -[solver_direct derived_fields flux_probe].
  change (s_M (upd_src src (set_eps eps (upd_modes l s)))) with (s_M (upd_src src (set_eps eps s))).
  change (rhs (upd_src src (set_eps eps (upd_modes l s)))) with (rhs (upd_src src (set_eps eps s))).
  destruct (negb _); [reflexivity|]. destruct (solver_direct _ _ _ _ _) as [z|x]; [|reflexivity].
  change (derived_fields (upd_src src (set_eps eps (upd_modes l s)))) with (derived_fields (upd_src src (set_eps eps s))).
  destruct (derived_fields _ _ _ _) as [a b]. unfold flux_probe. reflexivity.
Qed.
Lemma setup_ignores_modes e m l s s1 : setup_src e m s = (s1, Ok tt) -> setup_src e m (upd_modes l s) = (upd_modes l s1, Ok tt).
Proof.
  unfold setup_src. rewrite norm_modes. destruct (compute_normalization e m s) as [V|]; [|discriminate]. cbv zeta.
  change (insert_mode e m (upd_W_in V (upd_modes l s))) with (insert_mode e m (upd_W_in V s)).
  change (s_src (upd_W_in V (upd_modes l s))) with (s_src (upd_W_in V s)).
  destruct (insert_mode e m (upd_W_in V s) _) as [src|]; [|discriminate]. intro H. injection H as <-. reflexivity.
Qed.
Lemma setup_ignores_W e m W s s1 : setup_src e m s = (s1, Ok tt) -> setup_src e m (upd_W_in W s) = (s1, Ok tt).
Proof.
  unfold setup_src. rewrite norm_W. destruct (compute_normalization e m s) as [V|]; [|discriminate]. cbv zeta.
  change (insert_mode e m (upd_W_in V (upd_W_in W s))) with (insert_mode e m (upd_W_in V s)).
  change (s_src (upd_W_in V (upd_W_in W s))) with (s_src (upd_W_in V s)).
  destruct (insert_mode e m (upd_W_in V s) _) as [src|]; [|discriminate]. intro H. injection H as <-. reflexivity.
Qed.
Example C86_met :
  exists e s0 s s' d1 d2, reachable e s0 /\ (add_mode edge_mode ;;; add_mode mid_mode) s0 = (s, Ok tt) /\ s_modes s = [edge_mode; mid_mode] /\
    setup_modes e s = (s', Ok tt) /\ (forall i j, nd_at (s_src s) i j = RtoC 0) /\
    List.ForallOrdPairs (separate s) (s_modes s) /\
    List.Forall2 (fun m d => setup_src e m s = (d, Ok tt)) (s_modes s) [d1; d2] /\
    on_line edge_mode (nd_nx (s_src s)) (nd_ny (s_src s)) 1 2 /\ on_line mid_mode (nd_nx (s_src s)) (nd_ny (s_src s)) 2 2 /\
    nd_at (s_src s') 2 2 <> RtoC 0.
Proof.
  destruct (fam_sim_ok "Ez" 9 6 0 0 two_eps (or_introl eq_refl)) as [s0 HS].
  destruct (fam_plain _ _ _ _ HS ltac:(lia) ltac:(lia) ltac:(intros; unfold two_eps; lra)) as (_ & HR & _).
  destruct (fam_basic _ _ _ _ HS) as (Hp & Hd & HL & Ho & Ex & Ey & Ee & Es & HQ).
  set (e := sign_env (fun _ => RtoC (/ sqrt 3))).
  destruct (uniform_edge_set_up s0 HS) as (d1 & R1). fold e in R1.
  assert (U := fun sr => uniform_mode_set_up (/ sqrt 3) 9 s0 sr ltac:(rewrite <- third; unfold Rsqr; ring) HS ltac:(lia)). fold e in U. cbv zeta in U.
  destruct (U (s_src s0) ltac:(rewrite Es; reflexivity) ltac:(rewrite Es; reflexivity)) as (d2 & ? & ? & ? & ? & ? & R2 & V2 & _).
  assert (ES: upd_src (s_src s0) s0 = s0) by (destruct s0; reflexivity). rewrite ES in R2.
  destruct (setup_shape _ _ _ _ R1) as [X1 Y1]. rewrite Es in X1, Y1. cbn [nd_nx nd_ny] in X1, Y1.
  destruct (U (s_src d1) X1 Y1) as (d3 & ? & ? & ? & ? & ? & R3 & V3 & _).
  assert (E1: exists W, d1 = upd_src (s_src d1) (upd_W_in W s0)).
  { apply setup_src_inv in R1 as (_ & _ & _ & _ & _ & _ & _ & _ & _ & W & _ & E). exists W. exact E. }
  destruct E1 as [W1 E1].
  set (l := [edge_mode; mid_mode]).
  exists e, s0, (upd_modes l s0), (upd_modes l d3), (upd_modes l d1), (upd_modes l d2).
  assert (EM: s_modes s0 = []).
  { unfold fam_sim, Simulation in HS. destruct (check_inputs _ _ _ _); [|discriminate]. injection HS as <-. reflexivity. }
  assert (P: (0 < / sqrt 3)%R) by (apply Rinv_0_lt_compat, sqrt_lt_R0; lra).
  change (s_src (upd_modes l s0)) with (s_src s0). rewrite Es. cbn [nd_nx nd_ny].
  split; [apply HR|]. split; [unfold bind, add_mode, modS; cbn; rewrite EM; reflexivity|]. split; [reflexivity|]. split; [|split; [|split; [|split; [|split; [|split]]]]].
  - unfold setup_modes. change (s_modes (upd_modes l s0)) with l. unfold l at 1. cbn [setup_list]. unfold bind.
    rewrite (setup_ignores_modes e edge_mode l s0 d1 R1).
    assert (Q: setup_src e mid_mode (upd_modes l d1) = (upd_modes l d3, Ok tt)).
    { apply setup_ignores_modes. rewrite E1. exact (setup_ignores_W e mid_mode W1 _ _ R3). }
    rewrite Q. reflexivity.
  - intros i j. reflexivity.
  - constructor; [|constructor; [constructor|constructor]]. constructor; [|constructor].
    intros i j [[(_ & Q1 & _)|(Q1 & _)] [(_ & Q2 & _)|(Q2 & _)]]; try discriminate. unfold in_slice in Q1, Q2. cbn in Q1, Q2. lia.
  - constructor; [apply setup_ignores_modes, R1|]. constructor; [apply setup_ignores_modes, R2|constructor].
  - left. split; [reflexivity|]. unfold in_slice, half. cbn. lia.
  - left. split; [reflexivity|]. unfold in_slice, half. cbn. lia.
  - change (s_src (upd_modes l d3)) with (s_src d3). rewrite V3 by lia. unfold mode_profile. intro Q. apply (f_equal Re) in Q. cbn [Re RtoC fst] in Q.
    rewrite Cmod_mult, !Cmod_R, Rabs_R1 in Q. autorewrite with reim in Q. cbn [Re Im RtoC fst snd] in Q.
    replace (/ sqrt 3 * 1 - 0 * 0)%R with (/ sqrt 3)%R in Q by ring.
    destruct (np_sign_cases (/ sqrt 3)) as [[? E]|[[? E]|[? E]]]; try lra. rewrite E, Rabs_pos_eq in Q by lra. lra.
Qed.
