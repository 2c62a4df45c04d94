(** C51 (scan_power), C52: the power scan. *)
From Coq Require Import Reals Lra Lia List ZArith Arith Bool String ClassicalEpsilon.
From Coquelicot Require Import Coquelicot.
From Verif Require Import Base Linear MCore MSim MFilter MOpt MMode Spec PCore PSim PEx PExOpt PMode PropsCore PropsSolve PropsLin PropsIter PropsOpt3 PropsFlux PropsMode.
Import ListNotations.
Local Open Scope string_scope.

(* ------------------------------------------------------------------ *)
(** ** Specification *)

(** the probes are called one after the other on the simulation *)
Inductive probe_outputs : list (St sim R) -> sim -> list R -> Prop :=
| po_nil s : probe_outputs [] s []
| po_cons p t s s' W l : p s = (s', Ok W) -> probe_outputs t s' l -> probe_outputs (p :: t) s (W :: l).

(** one point of the scan: on a copy of s the scale of the first mode is set to x, the
    mode is set up (input power W) and the nonlinear problem is solved; the probes see s3 *)
Definition point_of (e : env) (solver : string) (x : R) (s : sim) (W : R) (s2 s3 : sim) : Prop :=
  exists m t, s_modes s = m :: t /\
    setup_src e (with_scale m x) (upd_modes (with_scale m x :: t) s) = (s2, Ok tt) /\
    s_W_in s2 = Val W /\ scan_solve e solver s2 = (s3, Ok tt).

(* ------------------------------------------------------------------ *)
(** ** C51 *)

Lemma power_loop_state e ps solver xs : forall st st' r, power_loop e ps solver xs st = (st', r) -> st' = st.
Proof.
  induction xs as [|x t IH]; intros st st' r H; [injection H as <- _; reflexivity|]. cbn [power_loop] in H.
  destruct (scan_point e ps solver x (snd st)) as [p|x0]; [|injection H as <- _; reflexivity].
  unfold bind in H. destruct (power_loop e ps solver t st) as [st1 [l|]] eqn:E; apply IH in E; subst st1; injection H as <- _; reflexivity.
Qed.
(** The power scan leaves the optimization and its simulation as they are, whatever the
    probes do and however it ends. *)
Theorem C51_power_scan_keeps_simulation :
  forall e probes Ns s_min s_max solver o s o' s' r,
  scan_power e probes Ns s_min s_max solver (o, s) = ((o', s'), r) -> s' = s /\ o' = o.
Proof.
  intros e probes Ns s_min s_max solver o s o' s' r H. unfold scan_power in H.
  destruct probes as [ps|]; [|injection H as <- <- _; auto].
  destruct (Rlt_dec 0 s_min); [|injection H as <- <- _; auto]. destruct (Rlt_dec 0 s_max); [|injection H as <- <- _; auto].
  destruct (power_loop _ _ _ _ _) as [st1 [l|]] eqn:E; apply power_loop_state in E; subst st1; injection H as <- <- _; auto.
Qed.

(* ------------------------------------------------------------------ *)
(** ** C52 *)

Lemma run_probes_spec W ps : forall s s' l, run_probes W ps s = (s', Ok l) ->
  exists outs, probe_outputs ps s outs /\ l = List.map (fun o => ratio o W) outs.
Proof.
  induction ps as [|p t IH]; intros s s' l H; cbn [run_probes] in H.
  - injection H as _ <-. exists []. split; [constructor|reflexivity].
  - unfold bind in H. destruct (p s) as [s1 [V|]] eqn:EP; [|discriminate].
    destruct (run_probes W t s1) as [s2 [l2|]] eqn:ER; [|discriminate]. injection H as _ <-.
    apply IH in ER as (outs & HO & ->). exists (V :: outs). split; [econstructor; eassumption|reflexivity].
Qed.
Lemma probe_outputs_length ps s outs : probe_outputs ps s outs -> List.length outs = List.length ps.
Proof. induction 1; cbn; congruence. Qed.
Lemma scan_point_spec e ps solver x s W l : scan_point e ps solver x s = Ok (W, l) ->
  exists s2 s3 outs, point_of e solver x s W s2 s3 /\ probe_outputs ps s3 outs /\ l = List.map (fun o => ratio o W) outs.
Proof.
  unfold scan_point. intro H. destruct (s_modes s) as [|m t] eqn:EM; [discriminate|]. cbv zeta in H.
  destruct (setup_src e (with_scale m x) _) as [s2 [[]|]] eqn:ES; [|discriminate].
  destruct (s_W_in s2) as [ | |V] eqn:EW; try discriminate.
  destruct (scan_solve e solver s2) as [s3 [[]|]] eqn:EV; [|discriminate].
  destruct (run_probes V ps s3) as [s4 [l2|]] eqn:ER; [|discriminate]. injection H as <- <-.
  apply run_probes_spec in ER as (outs & HO & ->). exists s2, s3, outs. split; [|split; [exact HO|reflexivity]].
  exists m, t. auto.
Qed.
Lemma power_loop_spec e ps solver xs : forall st st' l, power_loop e ps solver xs st = (st', Ok l) ->
  List.length l = List.length xs /\
  forall k, (k < List.length xs)%nat -> scan_point e ps solver (List.nth k xs 0%R) (snd st) = Ok (List.nth k l (0%R, [])).
Proof.
  induction xs as [|x t IH]; intros st st' l H.
  - injection H as _ <-. split; [reflexivity|]. intros k Hk. cbn in Hk. lia.
  - cbn [power_loop] in H. destruct (scan_point e ps solver x (snd st)) as [p|x0] eqn:EP; [|discriminate].
    unfold bind in H. destruct (power_loop e ps solver t st) as [st1 [l1|]] eqn:E; [|discriminate]. injection H as _ <-.
    apply IH in E as [E1 E2]. split; [cbn; congruence|]. intros [|k] Hk; [exact EP|]. cbn. apply E2. cbn in Hk. lia.
Qed.

(** Ns powers and, for each probe, Ns transmissions; point k belongs to the k-th scale
    and its transmissions are the outputs of the probes over its input power. *)
Theorem C52_one_transmission_per_probe_and_power :
  forall e ps Ns s_min s_max solver o s st' powers trans,
  scan_power e (Some ps) Ns s_min s_max solver (o, s) = (st', Ok (powers, trans)) ->
  List.length powers = Ns /\ List.length trans = List.length ps /\
  (forall p, (p < List.length ps)%nat -> List.length (List.nth p trans []) = Ns) /\
  forall k, (k < Ns)%nat ->
  exists W s2 s3 outs, point_of e solver (scan_scale s_min s_max Ns k) s W s2 s3 /\ probe_outputs ps s3 outs /\
    List.nth k powers 0%R = W /\
    forall p, (p < List.length ps)%nat ->
      (W <> 0%R -> List.nth k (List.nth p trans []) None = Some (List.nth p outs 0 / W)%R) /\
      (W = 0%R -> List.nth k (List.nth p trans []) None = None).
Proof.
  intros e ps Ns s_min s_max solver o s st' powers trans H. unfold scan_power in H.
  destruct (Rlt_dec 0 s_min); [|discriminate]. destruct (Rlt_dec 0 s_max); [|discriminate].
  destruct (power_loop _ _ _ _ _) as [st1 [l|]] eqn:E; [|discriminate]. injection H as <- <- <-.
  apply power_loop_spec in E as [EL EP]. rewrite List.map_length, List.seq_length in EL, EP. cbn [snd] in EP.
  set (n := List.length ps).
  assert (NT: forall p, (p < n)%nat -> List.nth p (List.map (fun p0 => List.map (fun q => List.nth p0 (snd q) None) l) (List.seq 0 n)) [] = List.map (fun q => List.nth p (snd q) None) l).
  { intros p Hp. rewrite (List.nth_indep _ [] (List.map (fun q : R * list (option R) => List.nth 0 (snd q) None) l)) by (rewrite List.map_length, List.seq_length; exact Hp).
    rewrite (List.map_nth (fun p0 => List.map (fun q : R * list (option R) => List.nth p0 (snd q) None) l)). rewrite List.seq_nth by exact Hp. reflexivity. }
  split; [rewrite List.map_length; exact EL|]. split; [rewrite List.map_length, List.seq_length; reflexivity|].
  split; [intros p Hp; rewrite NT by exact Hp; rewrite List.map_length; exact EL|].
  intros k Hk. specialize (EP k Hk).
  assert (ES: List.nth k (List.map (scan_scale s_min s_max Ns) (List.seq 0 Ns)) 0%R = scan_scale s_min s_max Ns k).
  { rewrite (List.nth_indep _ 0%R (scan_scale s_min s_max Ns 0)) by (rewrite List.map_length, List.seq_length; exact Hk).
    rewrite List.map_nth, List.seq_nth by exact Hk. reflexivity. }
  rewrite ES in EP. destruct (List.nth k l (0%R, [])) as [W t] eqn:EN.
  apply scan_point_spec in EP as (s2 & s3 & outs & P1 & P2 & P3). exists W, s2, s3, outs. split; [exact P1|]. split; [exact P2|].
  split.
  { change 0%R with (fst (0%R, @nil (option R))). rewrite List.map_nth, EN. reflexivity. }
  intros p Hp. rewrite NT by exact Hp.
  rewrite (List.nth_indep _ None (List.nth p (snd (0%R, @nil (option R))) None)) by (rewrite List.map_length; lia).
  rewrite (List.map_nth (fun q : R * list (option R) => List.nth p (snd q) None)), EN. cbn [snd]. rewrite P3.
  assert (HO := probe_outputs_length _ _ _ P2).
  rewrite (List.nth_indep _ None (ratio 0 W)) by (rewrite List.map_length, HO; exact Hp).
  rewrite (List.map_nth (fun o => ratio o W)). unfold ratio. destruct (Req_EM_T W 0); split; intro Q; try contradiction; reflexivity.
Qed.

(** The scales: from s_min to s_max in equal ratios. *)
Theorem C52_scales_are_geometric :
  forall s_min s_max Ns, (0 < s_min)%R -> (0 < s_max)%R -> (2 <= Ns)%nat ->
  scan_scale s_min s_max Ns 0 = s_min /\ scan_scale s_min s_max Ns (Ns - 1) = s_max /\
  forall k, (scan_scale s_min s_max Ns (S k) / scan_scale s_min s_max Ns k = Rpower (s_max / s_min) (/ INR (Ns - 1)))%R.
Proof.
  intros a b Ns Ha Hb HN. assert (L10: (0 < ln 10)%R) by (rewrite <- ln_1; apply ln_increasing; lra).
  assert (G: forall k, scan_scale a b Ns k = exp (ln a + INR k * ((ln b - ln a) / INR (Ns - 1)))%R).
  { intro k. unfold scan_scale, linspace, log10, Rpower. destruct (Nat.leb_spec Ns 1); [lia|]. f_equal.
    assert (0 < INR (Ns - 1))%R by (apply lt_0_INR; lia). field. lra. }
  assert (NZ: (0 < INR (Ns - 1))%R) by (apply lt_0_INR; lia).
  split; [|split].
  - rewrite G. change (INR 0) with 0%R. rewrite Rmult_0_l, Rplus_0_r. apply exp_ln; exact Ha.
  - rewrite G. replace (ln a + INR (Ns - 1) * ((ln b - ln a) / INR (Ns - 1)))%R with (ln b) by (field; lra). apply exp_ln; exact Hb.
  - intro k. rewrite !G. unfold Rdiv at 1. rewrite <- exp_Ropp, <- exp_plus. unfold Rpower. f_equal. rewrite S_INR, ln_div by assumption. field. lra.
Qed.
Theorem C52_one_point :
  forall s_min s_max k, (0 < s_min)%R -> scan_scale s_min s_max 1 k = s_min.
Proof.
  intros a b k Ha. assert (L10: (0 < ln 10)%R) by (rewrite <- ln_1; apply ln_increasing; lra).
  unfold scan_scale, linspace, log10, Rpower. cbn [Nat.leb]. replace (ln a / ln 10 * ln 10)%R with (ln a) by (field; lra). apply exp_ln; exact Ha.
Qed.

(** *** Which fields the probes see *)

(** linear fields of s2 as seen from s *)
Definition own_fields (s s2 : sim) : Prop :=
  same_problem s s2 /\
  match s_fields s (pol_comp (s_pol s)) with
  | Some _ => s_fields s2 = s_fields s
  | None => s_fields s2 (pol_comp (s_pol s)) = None \/
            exists z, s_fields s2 (pol_comp (s_pol s)) = Some z /\ solves (s_M s2) (s_A s2) z (rhs s2)
  end.
Lemma same_system a b : same_problem a b -> s_M b = s_M a /\ s_A b = s_A a /\ s_pol b = s_pol a /\ (forall k, rhs b k = rhs a k).
Proof. intro H. unfold same_problem in H. unfold s_M, rhs. repeat split; [| | |intro k]; intuition congruence. Qed.
Lemma lin_step_own e s s2 : solver_exact e -> nonsingular (s_M s) (s_A s) -> lin_step e s s2 -> own_fields s s2.
Proof.
  intros He HA [HS HF]. split; [exact HS|]. destruct (same_system _ _ HS) as (EM & EA & _ & ER).
  destruct (s_fields s (pol_comp (s_pol s))) as [z|] eqn:EZ.
  - destruct HF as [HF|[HN _]]; [exact HF|congruence].
  - destruct HF as [HF|(_ & s1 & F & H1 & HF)]; [left; congruence|].
    destruct F as [[a b] z]. right. exists z.
    assert (S1 := solve_fields_solves e false false s _ _ _ _ He HA H1). unfold used_matrix in S1.
    apply solve_fields_lin_state in H1 as (_ & [(? & _)|(_ & X & _ & F1 & R)]); [discriminate|]. cbv zeta in *. injection R as -> -> ->.
    split; [rewrite HF, F1; apply store3_pol|]. rewrite EM, EA. intros r Hr. rewrite ER. exact (S1 r Hr).
Qed.
Lemma own_fields_trans a b c : own_fields a b -> own_fields b c -> own_fields a c.
Proof.
  intros [H1 H2] [H3 H4]. destruct (same_system _ _ H1) as (_ & _ & EP & _). destruct (same_system _ _ H3) as (EM & EA & _ & ER).
  split; [eapply same_trans; eassumption|]. rewrite EP in H4.
  destruct (s_fields a (pol_comp (s_pol a))) as [z|] eqn:EA1.
  - rewrite H2, EA1 in H4. congruence.
  - destruct H2 as [H2|(z & H2 & S2)]; rewrite H2 in H4; [exact H4|]. right. exists z. rewrite H4, H2. split; [reflexivity|].
    rewrite EM, EA. intros r Hr. rewrite ER. exact (S2 r Hr).
Qed.
Lemma solve_nl_own e av Es name thr n s s2 r : solver_exact e -> nonsingular (s_M s) (s_A s) -> name <> "krylov" \/ s_pol s = PolEz ->
  solve_fields_nl e av Es name thr n s = (s2, r) -> own_fields s s2.
Proof.
  intros He HA HK H. unfold solve_fields_nl in H. destruct (run_solver_nl e av Es name thr n s) as [s1 [[F conv]|x]] eqn:E.
  - apply run_solver_nl_step_strict in E; [|exact HK]. apply lin_step_own in E; [|assumption|assumption]. injection H as <- _. exact E.
  - apply run_solver_nl_step_strict in E; [|exact HK]. apply lin_step_own in E; [|assumption|assumption]. injection H as <- _. exact E.
Qed.
Lemma scan_solve_own e solver s s2 r : solver_exact e -> nonsingular (s_M s) (s_A s) -> solver <> "krylov" \/ s_pol s = PolEz ->
  scan_solve e solver s = (s2, r) -> own_fields s s2.
Proof.
  intros He HA HK H. unfold scan_solve in H. destruct (String.eqb_spec solver "hybrid") as [->|NE].
  - destruct (solve_fields_nl e false None "born" _ _ s) as [s1 [[F c]|x]] eqn:E1; apply solve_nl_own in E1; try assumption; try (left; discriminate); [|injection H as <- _; exact E1].
    destruct (last_conv c) as [c0|]; [|injection H as <- _; exact E1].
    destruct (xgt c0 _); [|injection H as <- _; exact E1].
    unfold bind in H. destruct (solve_fields_nl e false None "newton" _ _ s1) as [s3 r3] eqn:E3. 
    assert (E4: own_fields s1 s3).
    { destruct (same_system _ _ (proj1 E1)) as (EM & EA & EP & _). eapply solve_nl_own; try exact E3; [exact He|rewrite EM, EA; exact HA|left; discriminate]. }
    destruct r3; injection H as <- _; exact (own_fields_trans _ _ _ E1 E4).
  - unfold bind in H. destruct (solve_fields_nl e false None solver _ _ s) as [s3 r3] eqn:E3.
    assert (E4: own_fields s s3) by (eapply solve_nl_own; eassumption).
    destruct r3; injection H as <- _; exact E4.
Qed.
Lemma setup_keeps e m s s' : setup_src e m s = (s', Ok tt) -> s_fields s' = s_fields s /\ s_M s' = s_M s /\ s_A s' = s_A s /\ s_pol s' = s_pol s.
Proof. intro H. apply setup_src_inv in H as (_ & _ & _ & _ & _ & _ & _ & _ & _ & W & _ & ->). auto. Qed.

(** The property: the linear fields the probes find belong to the source of their point. *)
Definition C52_property : Prop :=
  forall e solver x s W s2 s3 z, reachable e s -> solver_exact e -> nonsingular (s_M s) (s_A s) -> s_pol s = PolEz ->
  point_of e solver x s W s2 s3 -> s_fields s3 Ez = Some z -> solves (s_M s3) (s_A s3) z (rhs s3).

(** It holds when the simulation has no linear field (after every change of the
    permittivity) ... *)
Theorem C52_own_linear_fields_partial :
  forall e solver x s W s2 s3 z, solver_exact e -> nonsingular (s_M s) (s_A s) -> solver <> "krylov" \/ s_pol s = PolEz ->
  s_fields s (pol_comp (s_pol s)) = None ->
  point_of e solver x s W s2 s3 ->
  s_fields s3 (pol_comp (s_pol s)) = Some z -> solves (s_M s3) (s_A s3) z (rhs s3).
Proof.
  intros e solver x s W s2 s3 z He HA HK H0 (m & t & EM & E1 & EW & E2) Hz.
  apply setup_keeps in E1 as (EF & E3 & E4 & E5). cbn [upd_modes s_fields s_M s_A s_pol] in EF, E4, E5. change (s_M (upd_modes (with_scale m x :: t) s)) with (s_M s) in E3.
  apply scan_solve_own in E2 as [_ E2]; [|exact He|rewrite E3, E4; exact HA|rewrite E5; exact HK].
  rewrite EF, E5, H0, Hz in E2. destruct E2 as [E2|(z' & E2 & E6)]; [discriminate|]. injection E2 as <-. exact E6.
Qed.
(** ... but if it has one, every point of the scan keeps it: the probes that read the
    linear fields give the same power at every point. *)
Theorem C52_stored_linear_fields_kept :
  forall e solver x s W s2 s3 z, solver_exact e -> nonsingular (s_M s) (s_A s) -> solver <> "krylov" \/ s_pol s = PolEz ->
  s_fields s (pol_comp (s_pol s)) = Some z ->
  point_of e solver x s W s2 s3 ->
  s_fields s3 = s_fields s /\ forall dir center w, flux_probe dir center w false s3 = flux_probe dir center w false s.
Proof.
  intros e solver x s W s2 s3 z He HA HK H0 (m & t & EM & E1 & EW & E2).
  assert (E1' := E1). apply setup_src_inv in E1' as (_ & _ & _ & _ & _ & _ & _ & _ & _ & V & _ & ES2).
  apply setup_keeps in E1 as (EF & E3 & E4 & E5). cbn [upd_modes s_fields s_A s_pol] in EF, E4, E5. change (s_M (upd_modes (with_scale m x :: t) s)) with (s_M s) in E3.
  apply scan_solve_own in E2 as [HS E2]; [|exact He|rewrite E3, E4; exact HA|rewrite E5; exact HK].
  rewrite EF, E5, H0 in E2. split; [exact E2|].
  intros dir center w. unfold flux_probe. rewrite E2.
  assert (Q: s_pol s3 = s_pol s /\ s_Nx s3 = s_Nx s /\ s_Ny s3 = s_Ny s /\ s_dl s3 = s_dl s).
  { unfold same_problem in HS. rewrite ES2 in HS. cbn [upd_src upd_W_in upd_modes s_pol s_Nx s_Ny s_dl] in HS. intuition congruence. }
  destruct Q as (-> & -> & -> & ->). reflexivity.
Qed.
(** The probes that read the nonlinear fields: the problem is that of the source of the
    point, and the fields are those the last call of solve_fields_nl returned. *)
Theorem C52_nonlinear_fields_of_the_point :
  forall e solver x s W s2 s3, point_of e solver x s W s2 s3 ->
  same_problem s2 s3 /\
  exists sa sb F conv name, same_problem s2 sa /\ solve_fields_nl e false None name (1 / 10 ^ 10)%R 100 sa = (sb, Ok (F, conv)) /\
    s3 = sb /\ s_fields_nl s3 (pol_comp (s_pol s3)) = Some (snd F).
Proof.
  intros e solver x s W s2 s3 (m & t & EM & E1 & EW & E2).
  assert (SN: forall name sa sb r, solve_fields_nl e false None name (1 / 10 ^ 10)%R 100 sa = (sb, r) -> same_problem sa sb /\
     forall F conv, r = Ok (F, conv) -> s_fields_nl sb (pol_comp (s_pol sb)) = Some (snd F)).
  { intros name sa sb r H. unfold solve_fields_nl in H. destruct (run_solver_nl e false None name _ _ sa) as [s1 [[F conv]|]] eqn:E.
    - apply run_solver_nl_step in E as [HS _]. injection H as <- <-. split; [exact HS|]. intros F' c' Q. injection Q as <- <-.
      cbn [upd_fields_nl s_fields_nl s_pol]. apply store3_pol.
    - apply run_solver_nl_step in E as [HS _]. injection H as <- <-. split; [exact HS|]. intros F' c' Q. discriminate. }
  unfold scan_solve in E2. destruct (String.eqb solver "hybrid").
  - destruct (solve_fields_nl e false None "born" _ _ s2) as [s1 [[F c]|x0]] eqn:EB; [|discriminate].
    destruct (SN _ _ _ _ EB) as [B1 B2].
    destruct (last_conv c) as [c0|]; [|discriminate]. destruct (xgt c0 _).
    + unfold bind in E2. destruct (solve_fields_nl e false None "newton" _ _ s1) as [s4 [[F4 c4]|]] eqn:EN; [|discriminate]. injection E2 as <-.
      destruct (SN _ _ _ _ EN) as [N1 N2]. split; [eapply same_trans; eassumption|]. exists s1, s4, F4, c4, "newton". split; [exact B1|]. split; [exact EN|]. split; [reflexivity|]. eapply N2; reflexivity.
    + injection E2 as <-. split; [exact B1|]. exists s2, s1, F, c, "born". split; [apply same_refl|]. split; [exact EB|]. split; [reflexivity|]. eapply B2; reflexivity.
  - unfold bind in E2. destruct (solve_fields_nl e false None solver _ _ s2) as [s4 [[F4 c4]|]] eqn:EN; [|discriminate]. injection E2 as <-.
    destruct (SN _ _ _ _ EN) as [N1 N2]. split; [exact N1|]. exists s2, s4, F4, c4, solver. split; [apply same_refl|]. split; [exact EN|]. split; [reflexivity|]. eapply N2; reflexivity.
Qed.

(** Which solver is used at a point: the one that was asked for; for "hybrid", Newton's method after the
    Born iteration if that ended with a relative change above 1e-10, and only then. *)
Theorem C52_solver_of_the_point :
  forall e solver x s W s2 s3, point_of e solver x s W s2 s3 ->
  (solver <> "hybrid" -> exists r, solve_fields_nl e false None solver (1 / 10 ^ 10)%R 100 s2 = (s3, Ok r)) /\
  (solver = "hybrid" -> exists sb F before d,
     solve_fields_nl e false None "born" (1 / 10 ^ 10)%R 100 s2 = (sb, Ok (F, before ++ [d])%list) /\
     ((d = PInf \/ exists v, d = Fin v /\ (1 / 10 ^ 10 < v)%R) -> exists r, solve_fields_nl e false None "newton" (1 / 10 ^ 10)%R 100 sb = (s3, Ok r)) /\
     ((d = NaN \/ exists v, d = Fin v /\ (v <= 1 / 10 ^ 10)%R) -> s3 = sb)).
Proof.
  intros e solver x s W s2 s3 (m & t & EM & E1 & EW & E2). unfold scan_solve in E2. destruct (String.eqb_spec solver "hybrid") as [->|NE].
  - split; [intro Q; contradiction|]. intros _.
    destruct (solve_fields_nl e false None "born" _ _ s2) as [s1 [[F c]|x0]] eqn:EB; [|discriminate].
    unfold last_conv in E2. destruct (rev c) as [|d l] eqn:ER; [discriminate|].
    assert (EC : c = (rev l ++ [d])%list) by (rewrite <- (rev_involutive c), ER; reflexivity).
    exists s1, F, (rev l), d. split; [rewrite <- EC; reflexivity|].
    assert (N : forall sx rx, (solve_fields_nl e false None "newton" (1 / 10 ^ 10)%R 100 ;;; ret tt) s1 = (sx, Ok rx) -> exists r, solve_fields_nl e false None "newton" (1 / 10 ^ 10)%R 100 s1 = (sx, Ok r)).
    { intros sx rx Q. unfold bind in Q. destruct (solve_fields_nl e false None "newton" _ _ s1) as [s4 [r4|]]; [|discriminate]. injection Q as <- _. eexists. reflexivity. }
    split.
    + intro Q. apply (N s3 tt). destruct Q as [->|(v & -> & Hv)]; unfold xgt in E2; [exact E2|]. destruct (Rlt_dec (1 / 10 ^ 10) v); [exact E2|contradiction].
    + intros [->|(v & -> & Hv)]; unfold xgt in E2; [injection E2 as <-; reflexivity|]. destruct (Rlt_dec (1 / 10 ^ 10) v); [lra|injection E2 as <-; reflexivity].
  - split; [intros _|intro Q; contradiction]. unfold bind in E2. destruct (solve_fields_nl e false None solver _ _ s2) as [s4 [r4|]] eqn:EN; [|discriminate].
    injection E2 as <-. eexists. reflexivity.
Qed.

(** *** A simulation with stored fields *)

Lemma norm_modes e m l s : compute_normalization e m (upd_modes l s) = compute_normalization e m s.
Proof.
  unfold compute_normalization. change (s_eps (upd_modes l s)) with (s_eps s).
  destruct (norm_structure m (s_eps s)) as [[eps c]|]; [|reflexivity].
  change (set_eps eps (upd_modes l s)) with (upd_modes l (set_eps eps s)). set (t := set_eps eps s). cbv zeta.
  change (s_src (upd_modes l t)) with (s_src t). change (insert_mode e m (upd_modes l t) (s_src t)) with (insert_mode e m t (s_src t)).
  destruct (insert_mode e m t (s_src t)) as [d|]; [|reflexivity]. change (upd_src d (upd_modes l t)) with (upd_modes l (upd_src d t)).
  set (u := upd_src d t). unfold solve_fields. change (s_src (upd_modes l u)) with (s_src u). change (s_M (upd_modes l u)) with (s_M u).
  change (s_A (upd_modes l u)) with (s_A u). change (rhs (upd_modes l u)) with (rhs u).
  destruct (Nat.eqb _ _); [|reflexivity]. destruct (solver_direct _ _ _ _ _) as [X|]; [|reflexivity]. cbn [negb].
  change (derived_fields (upd_modes l u) (s_epsC (upd_modes l u)) false X) with (derived_fields u (s_epsC u) false X).
  destruct (derived_fields u (s_epsC u) false X) as [p q]. reflexivity.
Qed.
Lemma setup_transfer e m l F s s' : setup_src e m s = (s', Ok tt) ->
  setup_src e m (upd_modes l (upd_fields F s)) = (upd_modes l (upd_fields F s'), Ok tt).
Proof.
  unfold setup_src. rewrite norm_modes. change (compute_normalization e m (upd_fields F s)) with (compute_normalization e m s).
  destruct (compute_normalization e m s) as [W|]; [|discriminate]. cbv zeta.
  change (s_src (upd_W_in W (upd_modes l (upd_fields F s)))) with (s_src s). change (s_src (upd_W_in W s)) with (s_src s).
  change (insert_mode e m (upd_W_in W (upd_modes l (upd_fields F s))) (s_src s)) with (insert_mode e m (upd_W_in W s) (s_src s)).
  destruct (insert_mode e m (upd_W_in W s) (s_src s)) as [d|]; [|discriminate]. intro H. injection H as <-. reflexivity.
Qed.

(** the simulation of C55_met with the mode added, and with or without a solve before *)
Lemma scan_example (pre : bool) :
  exists e s W s2 s3, reachable e s /\ solver_exact e /\ nonsingular (s_M s) (s_A s) /\ s_pol s = PolEz /\
    (if pre then exists z, s_fields s Ez = Some z /\ forall k, z k = RtoC 0 else s_fields s Ez = None) /\
    point_of e "born" 1 s W s2 s3 /\ nd_at (s_src s3) 2 2 <> RtoC 0 /\ s_Nx s3 = 9%nat /\ s_Ny s3 = 6%nat /\ s_omega s3 = ex_omega /\ nd_ny (s_src s3) = 6%nat.
Proof.
  destruct (fam_sim_ok "Ez" 9 6 0 0 two_eps (or_introl eq_refl)) as [s0 HS].
  destruct (fam_plain _ _ _ _ HS ltac:(lia) ltac:(lia) ltac:(intros; unfold two_eps; lra)) as (_ & HR & HN & _).
  destruct (fam_basic _ _ _ _ HS) as (Hp & Hd & HL & Ho & Ex & Ey & Ee & Es & HQ).
  destruct (uniform_mode_set_up (/ sqrt 3) 9 s0 (s_src s0) ltac:(rewrite <- third; unfold Rsqr; ring) HS ltac:(lia) ltac:(rewrite Es; reflexivity) ltac:(rewrite Es; reflexivity)) as (s1 & ? & ? & ? & ? & W & R1 & V1 & _ & _ & _ & _ & W1 & _).
  assert (ES: upd_src (s_src s0) s0 = s0) by (destruct s0; reflexivity). rewrite ES in R1.
  set (e := sign_env (fun _ => RtoC (/ sqrt 3))) in *.
  assert (ED: exists F, (if pre then exists z, F Ez = Some z /\ forall k, z k = RtoC 0 else F = s_fields s0) /\
     upd_fields F s0 = run_ops e (if pre then [Solve false false] else []) s0).
  { destruct pre.
    - assert (HZ: nd_size (s_src s0) = s_M s0) by (rewrite Es; unfold nd_size, s_M; cbn [nd_nx nd_ny]; rewrite Ex, Ey; reflexivity).
      destruct (solve_fields_lin e false s0 HZ) as (X & HX & HE). cbv zeta in HE.
      assert (X0: X = vzero).
      { unfold solver_direct in HX. destruct (all_zero (s_M s0) (rhs s0)) eqn:EZ; [injection HX as <-; reflexivity|]. exfalso.
        assert (Q: all_zero (s_M s0) (rhs s0) = true); [|congruence]. apply all_zero_spec. intros k Hk. unfold rhs. rewrite Es. cbn [nd_buf]. ring. }
      eexists. split; [|cbn [run_ops fold_left run_op]; rewrite HE; reflexivity]. exists X. split; [rewrite Hp; reflexivity|]. intro k. rewrite X0. reflexivity.
    - exists (s_fields s0). split; [reflexivity|]. destruct s0; reflexivity. }
  destruct ED as (F & HF & EF).
  set (s := upd_modes [mid_mode] (upd_fields F s0)).
  assert (Hm: s_modes s0 = []). { unfold fam_sim, Simulation in HS. destruct (check_inputs _ _ _ _); [|discriminate]. injection HS as <-. reflexivity. }
  assert (R: reachable e s).
  { destruct (HR e) as (om & ep & dl & np & p & L & t & l & Q1 & Q2 & Q3 & Q4 & Q5).
    exists om, ep, dl, np, p, L, t, (l ++ (if pre then [Solve false false] else []) ++ [AddMode mid_mode])%list. repeat split; try assumption.
    assert (G: forall a b t, run_ops e (a ++ b)%list t = run_ops e b (run_ops e a t)) by (intros; unfold run_ops; apply fold_left_app).
    rewrite !G, <- Q5, <- EF. cbn. rewrite Hm. reflexivity. }
  assert (S2: setup_src e mid_mode s = (upd_modes [mid_mode] (upd_fields F s1), Ok tt)) by (apply setup_transfer; exact R1).
  set (s2 := upd_modes [mid_mode] (upd_fields F s1)) in *.
  assert (K: exists s3, scan_solve e "born" s2 = (s3, Ok tt) /\ same_problem s2 s3).
  { unfold scan_solve. change (String.eqb "born" "hybrid") with false. cbn iota. unfold bind, solve_fields_nl, run_solver_nl. change (String.eqb "born" "born") with true. cbn iota.
    destruct (born_solve_runs e None (1 / 10 ^ 10)%R 100 false s2) as (s3 & FF & conv & -> & HP).
    - assert (H1 := C55_only_the_line_is_written _ _ _ _ R1 0%nat 0%nat ltac:(rewrite Es; cbn; lia) ltac:(rewrite Es; cbn; lia)). destruct H1 as (N1 & N2 & _).
      apply setup_keeps in R1 as (_ & EM & _). change (nd_size (s_src s1) = s_M s1). rewrite EM. unfold nd_size, s_M. rewrite N1, N2, Es, Ex, Ey. reflexivity.
    - lia.
    - eexists. split; [reflexivity|]. exact HP. }
  destruct K as (s3 & K1 & K2).
  assert (N := C55_only_the_line_is_written _ _ _ _ R1 0%nat 0%nat ltac:(rewrite Es; cbn; lia) ltac:(rewrite Es; cbn; lia)). destruct N as (N1 & N2 & _).
  exists e, s, W, s2, s3. split; [exact R|]. split; [apply sign_env_exact|]. split; [exact HN|]. split; [exact Hp|].
  split. { destruct pre; [exact HF|]. change (F Ez = None). rewrite HF. unfold fam_sim, Simulation in HS. destruct (check_inputs _ _ _ _); [|discriminate]. injection HS as <-. reflexivity. }
  split. { exists mid_mode, []. split; [reflexivity|]. split; [exact S2|]. split; [exact W1|exact K1]. }
  assert (SS: s_src s3 = s_src s1 /\ s_Nx s3 = s_Nx s1 /\ s_Ny s3 = s_Ny s1 /\ s_omega s3 = s_omega s1).
  { unfold same_problem in K2. unfold s2 in K2. cbn [upd_modes upd_fields s_src s_Nx s_Ny s_omega] in K2. intuition congruence. }
  destruct SS as (SS & S4 & S5 & S6). rewrite SS, S4, S5, S6.
  assert (D: s_Nx s1 = s_Nx s0 /\ s_Ny s1 = s_Ny s0 /\ s_omega s1 = s_omega s0).
  { apply setup_src_inv in R1 as (_ & _ & _ & _ & _ & _ & _ & _ & _ & V & _ & ->). auto. }
  destruct D as (-> & -> & ->). split; [|rewrite N2, Es; auto].
  rewrite V1 by lia. unfold mode_profile. intro Q. apply (f_equal Re) in Q. cbn [Re RtoC fst] in Q.
  assert (P: (0 < / sqrt 3)%R) by (apply Rinv_0_lt_compat, sqrt_lt_R0; lra).
  rewrite Cmod_mult, !Cmod_R, Rabs_R1 in Q. autorewrite with reim in Q. cbn [Re Im RtoC fst snd] in Q.
  replace (/ sqrt 3 * 1 - 0 * 0)%R with (/ sqrt 3)%R in Q by ring.
  destruct (np_sign_cases (/ sqrt 3)) as [[? E]|[[? E]|[? E]]]; try lra. rewrite E, Rabs_pos_eq in Q by lra. lra.
Qed.

Theorem C52_stale_fields_refuted : ~ C52_property.
Proof.
  intro H. destruct (scan_example true) as (e & s & W & s2 & s3 & HR & He & HA & HP & (z & Hz & Z0) & PT & NZ & X3 & Y3 & O3 & N3).
  assert (Hz' := Hz). replace Ez with (pol_comp (s_pol s)) in Hz' by (rewrite HP; reflexivity).
  destruct (C52_stored_linear_fields_kept e "born" 1 s W s2 s3 z He HA (or_intror HP) Hz' PT) as [EF _].
  assert (S := H e "born" 1%R s W s2 s3 z HR He HA HP PT ltac:(rewrite EF; exact Hz)).
  assert (Q := S (pix 6 2 2) ltac:(unfold s_M; rewrite X3, Y3; cbn; lia)).
  rewrite csum_0 in Q by (intros k _; rewrite Z0; ring). unfold rhs in Q. rewrite O3 in Q. 
  apply NZ. unfold nd_at. rewrite N3. change (2 * 6 + 2)%nat with (pix 6 2 2). set (v := nd_buf (s_src s3) (pix 6 2 2)) in *.
  assert (P: (0 < ex_omega)%R) by apply ex_omega_pos.
  assert (PC: RtoC ex_omega <> RtoC 0) by (apply RtoC_neq0; lra).
  replace v with (/ Ci * / RtoC ex_omega * (v * Ci * RtoC ex_omega))%C by (field; split; [exact PC|exact Ci_neq0]).
  transitivity (/ Ci * / RtoC ex_omega * RtoC 0)%C; [|ring]. f_equal. rewrite Q. ring.
Qed.

(** A scan point of a fresh simulation and one of a simulation with stored fields. *)
Example C52_met :
  (exists e s W s2 s3, reachable e s /\ solver_exact e /\ nonsingular (s_M s) (s_A s) /\ s_pol s = PolEz /\ s_fields s Ez = None /\
     point_of e "born" 1 s W s2 s3) /\
  (exists e s W s2 s3, reachable e s /\ solver_exact e /\ nonsingular (s_M s) (s_A s) /\ s_pol s = PolEz /\ (exists z, s_fields s Ez = Some z) /\
     point_of e "born" 1 s W s2 s3).
Proof.
  split.
  - destruct (scan_example false) as (e & s & W & s2 & s3 & HR & He & HA & HP & Hz & PT & _). exists e, s, W, s2, s3. repeat split; assumption.
  - destruct (scan_example true) as (e & s & W & s2 & s3 & HR & He & HA & HP & (z & Hz & _) & PT & _). exists e, s, W, s2, s3. repeat split; try assumption. exists z; exact Hz.
Qed.
