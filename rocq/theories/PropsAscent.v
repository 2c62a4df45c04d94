(** C85: a small step of the gradient optimizers improves the objective. *)
From Coq Require Import Reals Lra Lia List ZArith Arith Bool String FunctionalExtensionality.
From Coquelicot Require Import Coquelicot.
From Verif Require Import Base Linear MCore MSim Spec PCore PSim PEx PropsCore PropsNl PropsIter MFilter PFilter PTanh PropsFilter MOpt PDiff PGrad PExOpt PropsGrad PropsGradNl PropsGradHz PropsGradTab POpt PropsOpt PropsOpt2 PropsOpt3.
Import ListNotations.
Local Open Scope nat_scope.

(** ** One-sided increase of a differentiable function *)
Lemma derive_increases f l : is_derive f 0%R l -> (0 < l)%R ->
  exists d, (0 < d)%R /\ forall t, (0 < t < d)%R -> (f 0%R < f t)%R.
Proof.
  intros H Hl. destruct (derive_quotient f l H (l / 2)%R ltac:(lra)) as (d & Hd & HQ). exists d. split; [exact Hd|].
  intros t Ht. specialize (HQ t ltac:(rewrite Rabs_pos_eq; lra) ltac:(lra)).
  apply Rabs_def2b in HQ || apply Rabs_le_between in HQ. destruct HQ as [Q1 Q2].
  assert (0 < (f t - f 0%R) / t)%R by lra.
  assert (0 < (f t - f 0%R) / t * t)%R by (apply Rmult_lt_0_compat; lra).
  replace ((f t - f 0%R) / t * t)%R with (f t - f 0%R)%R in H1 by (field; lra). lra.
Qed.

(** ** The step is a straight line while it is short *)
(** the velocity of a clipped density in [0,1] pushed with velocity v *)
Definition free_velocity (r v : R) : R :=
  if Rlt_dec 0 v then (if Rlt_dec r 1 then v else 0%R)
  else (if Rlt_dec 0 r then v else 0%R).
Lemma clip_line r v : (0 <= r <= 1)%R ->
  exists d, (0 < d)%R /\ forall t, (0 < t < d)%R -> clip01 (r + v * t)%R = (r + free_velocity r v * t)%R.
Proof.
  intro Hr. unfold free_velocity, clip01.
  destruct (Rlt_dec 0 v) as [Hv|Hv]; [destruct (Rlt_dec r 1) as [H1|H1]|destruct (Rlt_dec 0 r) as [H1|H1]].
  - exists ((1 - r) / v)%R. split; [apply Rdiv_lt_0_compat; lra|]. intros t Ht.
    assert (0 < v * t)%R by (apply Rmult_lt_0_compat; lra).
    assert (v * t < 1 - r)%R. { apply Rmult_lt_reg_l with (/ v)%R; [apply Rinv_0_lt_compat, Hv|]. rewrite <- Rmult_assoc, Rinv_l, Rmult_1_l by lra. unfold Rdiv in Ht. lra. }
    destruct (Rlt_dec (r + v * t) 0); [lra|]. destruct (Rlt_dec 1 (r + v * t)); lra.
  - exists 1%R. split; [lra|]. intros t Ht. assert (0 < v * t)%R by (apply Rmult_lt_0_compat; lra).
    destruct (Rlt_dec (r + v * t) 0); [lra|]. destruct (Rlt_dec 1 (r + v * t)); lra.
  - assert (HD: exists d, (0 < d)%R /\ forall t, (0 < t < d)%R -> (0 <= r + v * t)%R).
    { destruct (Req_dec v 0) as [->|N]; [exists 1%R; split; [lra|intros; lra]|].
      exists (r / - v)%R. split; [apply Rdiv_lt_0_compat; lra|]. intros t Ht.
      assert (- v * t < r)%R. { apply Rmult_lt_reg_l with (/ - v)%R; [apply Rinv_0_lt_compat; lra|]. rewrite <- Rmult_assoc, Rinv_l, Rmult_1_l by lra. unfold Rdiv in Ht. lra. }
      lra. }
    destruct HD as (d & Hd & HD). exists d. split; [exact Hd|]. intros t Ht. specialize (HD t Ht).
    assert (v * t <= 0)%R by (assert (0 <= - v * t)%R by (apply Rmult_le_pos; lra); lra).
    destruct (Rlt_dec (r + v * t) 0); [lra|]. destruct (Rlt_dec 1 (r + v * t)); lra.
  - exists 1%R. split; [lra|]. intros t Ht. assert (v * t <= 0)%R by (assert (0 <= - v * t)%R by (apply Rmult_le_pos; lra); lra). assert (r = 0%R) by lra. subst r.
    destruct (Rlt_dec (0 + v * t) 0); destruct (Rlt_dec 1 _); lra.
Qed.

(** ** What the objective depends on *)
Lemma rho2eps_below M r r' em W eta beta : (forall k, k < M -> r k = r' k) -> rho2eps M r em W eta beta = rho2eps M r' em W eta beta.
Proof.
  intro H. apply functional_extensionality. intro k. unfold rho2eps. do 2 f_equal. unfold rho2rhot, rmv. apply rsum_ext.
  intros j Hj. rewrite (H j Hj). reflexivity.
Qed.
Lemma lin_value_below e o s J args r r' : (forall k, k < s_M s -> r k = r' k) -> lin_value e o s J args r = lin_value e o s J args r'.
Proof.
  intro H. unfold lin_value. f_equal. apply map_ext. intro a. f_equal. unfold with_density, opt_eps.
  rewrite (rho2eps_below (s_M s) r r') by exact H. reflexivity.
Qed.
Lemma solved_twice e s : s_pol s = PolEz -> solved e (solved e s) = solved e s.
Proof.
  intro Hpol. unfold solved at 1. cbv zeta. change (s_pol (solved e s)) with (s_pol s). 
  unfold solved. rewrite Hpol. cbv zeta.
  match goal with |- upd_fields ?a (upd_fields ?b s) = upd_fields ?b s =>
    assert (E: a = b) by (apply functional_extensionality; intro c; destruct c; reflexivity); rewrite E end.
  destruct s; reflexivity.
Qed.

(** ** One iteration *)
(** the vector the first iteration adds to the density, per unit step *)
Definition step_vector (m : method) (g : rvec) : rvec := fun k =>
  match m with MADAM => (g k / (Rabs (g k) + 1 / 10 ^ 8))%R | _ => g k end.
Lemma first_adam_step b1 b2 g : (0 <= b1 < 1)%R -> (0 <= b2 < 1)%R ->
  adam_step b1 b2 (adam_m b1 0 g) (adam_v b2 0 g) 0 = (g / (Rabs g + 1 / 10 ^ 8))%R.
Proof.
  intros H1 H2. unfold adam_step, adam_m, adam_v. cbn [Nat.add]. rewrite !pow_1.
  replace ((b2 * 0 + (1 - b2) * g ^ 2) / (1 - b2))%R with (Rsqr g) by (unfold Rsqr; field; lra).
  rewrite sqrt_Rsqr_abs. f_equal. field. lra.
Qed.
Lemma run_grad_settings e f o o' dJ F args s : same_settings o o' -> run_grad e f o' dJ F args s = run_grad e f o dJ F args s.
Proof.
  intros (H1 & H2 & H3 & H4 & H5 & H6). destruct o, o'. cbn in *. subst. destruct f; reflexivity.
Qed.
Lemma grad_loop_settings e o o' l : same_settings o o' -> stored_args o' = stored_args o -> forall acc s, grad_loop e o' l acc s = grad_loop e o l acc s.
Proof.
  intros HS HA. induction l as [|[[f dJ] a] l IH]; intros acc s; [reflexivity|]. cbn [grad_loop]. rewrite HA, (run_grad_settings e f o o') by exact HS.
  destruct (run_grad _ _ _ _ _ _ _) as [s1 [g|x]]; [apply IH|reflexivity].
Qed.
Lemma first_iteration e m b1 b2 o s rho J args g st :
  (m = MGD \/ m = MADAM /\ (0 <= b1 < 1)%R /\ (0 <= b2 < 1)%R) ->
  o_current o = false -> o_objective o = set_J J args -> s_pol s = PolEz -> nd_size (s_src s) = s_M s -> List.Forall lin_Ez_arg args ->
  List.length args = pf_arity J -> o_max_shift o = None -> s_rho s = Val rho ->
  compute_dJ e (o, s) = (st, Ok g) -> s_rho (snd st) = Val rho ->
  forall step, exists o1, same_settings o o1 /\ o_current o1 = false /\
    run e m 1 step b1 b2 (o, s) =
      ((o1, with_density o (snd st) (fun k => clip01 (rho k + o_design o k * step * step_vector m g k)%R)), Ok tt).
Proof.
  intros Hm Hcur Hob Hpol Hsrc HA HL Hms Hrho HD Hst step.
  assert (HJ := compute_J_lin e (upd_current false o) s J args eq_refl Hob Hpol Hsrc HA HL).
  set (Fs := List.map (fun a => field_map s (oa_comp a) (lin_solution e s)) args) in *. set (J0 := pf_val J Fs) in *.
  assert (HS := solve_lin_args e o s J args Hcur Hob Hpol Hsrc HA). fold Fs in HS.
  set (o3 := upd_current false (push_amp (rmax (nd_size (s_src s)) (fun k => Cmod (nd_buf (s_src s) k))) (push_obj J0 (upd_arglist Fs (upd_current false o))))).
  assert (HD3: compute_dJ e (o3, solved e s) = ((upd_arglist Fs o3, snd st), Ok g)).
  { unfold compute_dJ in HD |- *. rewrite HS in HD.
    rewrite (solve_lin_args e o3 (solved e s) J args eq_refl Hob Hpol Hsrc HA). rewrite solved_twice by exact Hpol.
    change (List.map (fun a => field_map (solved e s) (oa_comp a) (lin_solution e (solved e s))) args) with Fs.
    change (o_objective (upd_arglist Fs o3)) with (o_objective o). change (o_objective (upd_arglist Fs o)) with (o_objective o) in HD.
    rewrite (grad_loop_settings e (upd_arglist Fs o) (upd_arglist Fs o3)) by (repeat split).
    destruct (grad_loop e (upd_arglist Fs o) _ _ _) as [s4 r4]. injection HD as <- ->. reflexivity. }
  assert (HE: eval_step e (upd_current false o, s) = ((upd_arglist Fs o3, snd st), Ok g)).
  { unfold eval_step, bind, modS. rewrite HJ. cbn [fst snd]. unfold set_source_amplitude. cbn [o_max_shift push_amp push_obj upd_arglist upd_current]. rewrite Hms. exact HD3. }
  unfold run. cbn [snd fst]. rewrite Hrho. cbv zeta.
  assert (HU: forall v : rvec, (forall k, v k = step_vector m g k) -> update_rho v step (upd_arglist Fs o3, snd st) =
     ((upd_current false (upd_arglist Fs o3), with_density o (snd st) (fun k => clip01 (rho k + o_design o k * step * step_vector m g k)%R)), Ok tt)).
  { intros v Hv. assert (v = step_vector m g) by (apply functional_extensionality; exact Hv). subst v. unfold update_rho. rewrite Hst. reflexivity. }
  exists (upd_current false (upd_arglist Fs o3)). split; [repeat split|]. split; [reflexivity|].
  destruct Hm as [->|(-> & H1 & H2)].
  - rewrite run_GD_step. unfold bind. rewrite HE. cbv zeta. rewrite HU by reflexivity. reflexivity.
  - rewrite run_ADAM_step. unfold bind. rewrite HE. cbv zeta. rewrite HU by (intro k; apply first_adam_step; assumption). reflexivity.
Qed.

(* ------------------------------------------------------------------ *)
(** * C85 *)
(** some density of the design region can follow its gradient without leaving [0,1] *)
Definition can_improve (s : sim) (design rho g : rvec) : Prop :=
  exists p, p < s_M s /\ design p = 1%R /\ ((0 < g p /\ rho p < 1) \/ (g p < 0 /\ 0 < rho p))%R.

Lemma velocity_gain r c g : (0 < c)%R -> (0 <= free_velocity r (c * g) * g)%R /\
  ((0 < g /\ r < 1) \/ (g < 0 /\ 0 < r) -> 0 < free_velocity r (c * g) * g)%R /\
  ((0 <= r <= 1)%R -> ~ ((0 < g /\ r < 1) \/ (g < 0 /\ 0 < r))%R -> free_velocity r (c * g) = 0%R).
Proof.
  intro Hc. unfold free_velocity. destruct (Rlt_dec 0 (c * g)) as [H|H].
  - assert (Hg: (0 < g)%R) by (apply Rmult_lt_reg_l with c; lra).
    destruct (Rlt_dec r 1) as [H1|H1].
    + assert (0 < c * g * g)%R by (apply Rmult_lt_0_compat; lra). split; [lra|]. split; [lra|]. intros _ N. exfalso. apply N. left. lra.
    + split; [lra|]. split; [lra|]. intros; reflexivity.
  - assert (Hg: (g <= 0)%R). { destruct (Rle_dec g 0) as [|N]; [assumption|]. exfalso. apply H. apply Rmult_lt_0_compat; lra. }
    destruct (Rlt_dec 0 r) as [H1|H1].
    + assert (0 <= c * (- g) * - g)%R by (apply Rmult_le_pos; [apply Rmult_le_pos|]; lra).
      split; [lra|]. split.
      * intros [?|[? _]]; [lra|]. assert (0 < c * (- g) * - g)%R by (apply Rmult_lt_0_compat; [apply Rmult_lt_0_compat|]; lra). lra.
      * intros _ N. destruct (Req_dec g 0) as [->|N0]; [ring|]. exfalso. apply N. right. lra.
    + split; [lra|]. split; [lra|]. intros; reflexivity.
Qed.
Lemma step_vector_scale m g k : exists c, (0 < c)%R /\ step_vector m g k = (c * g k)%R.
Proof.
  unfold step_vector. assert (H := Rabs_pos (g k)). assert (0 < 1 / 10 ^ 8)%R by (apply Rdiv_lt_0_compat; [lra|apply pow_lt; lra]).
  destruct m; try (exists 1%R; split; [lra|ring]). exists (/ (Rabs (g k) + 1 / 10 ^ 8))%R. split; [apply Rinv_0_lt_compat; lra|]. unfold Rdiv. ring.
Qed.
Lemma rsum_pos n f : (forall k, k < n -> (0 <= f k)%R) -> (exists k, k < n /\ (0 < f k)%R) -> (0 < rsum n f)%R.
Proof.
  induction n; intros H (k & Hk & Hp); [lia|]. cbn [rsum]. assert (0 <= rsum n f)%R by (apply rsum_ge0; intros; apply H; lia).
  destruct (Nat.eq_dec k n) as [->|N]; [lra|]. assert (0 < rsum n f)%R by (apply IHn; [intros; apply H; lia|exists k; split; [lia|exact Hp]]).
  assert (Hn := H n ltac:(lia)). lra.
Qed.

Theorem C85_small_step_improves :
  forall e o s rho J args ob m b1 b2,
  solver_exact e ->
  s_pol s = PolEz -> consistent s -> nd_size (s_src s) = s_M s -> nonsingular (s_M s) (s_A s) ->
  s_rho s = Val rho -> in_step o s rho -> (forall k, k < s_M s -> (0 <= rho k <= 1)%R) ->
  Objective J args = Ok ob -> o_objective o = ob ->
  (forall a, In a args -> exists c, (c = "Ez" \/ c = "Hx" \/ c = "Hy")%string /\ new_obj_arg c false = Ok a) ->
  (forall k, o_design o k = 0%R \/ o_design o k = 1%R) ->
  (forall p j, p < s_M s -> j < s_M s -> o_design o p = 1%R -> o_W o j p = (o_W o p j * o_design o j)%R) ->
  o_current o = false -> o_max_shift o = None -> (0 < o_beta o)%R -> (0 <= o_eta o <= 1)%R ->
  differentiable_at_fields e o s J ->
  (m = MGD \/ m = MADAM /\ (0 <= b1 < 1)%R /\ (0 <= b2 < 1)%R) ->
  exists st0 J0 st g, compute_J e (o, s) = (st0, Ok J0) /\ compute_dJ e (o, s) = (st, Ok g) /\
  exists bound, (0 < bound)%R /\ forall step, (0 < step < bound)%R ->
    exists st1 st2 J1, run e m 1 step b1 b2 (o, s) = (st1, Ok tt) /\ compute_J e st1 = (st2, Ok J1) /\
      (can_improve s (o_design o) rho g -> (J0 < J1)%R) /\
      (~ can_improve s (o_design o) rho g -> J1 = J0 /\
         exists rho1, s_rho (snd st1) = Val rho1 /\ forall k, k < s_M s -> rho1 k = rho k).
Proof.
  intros e o s rho J args ob m b1 b2 He Hpol HC Hsrc HN Hrho HS Hr Hob Ho Ha Hdes HW Hcur Hms Hb Het HG Hm.
  destruct (Objective_ok _ _ _ Hob) as [-> HL].
  assert (HA: List.Forall lin_Ez_arg args).
  { apply Forall_forall. intros a Hin. destruct (Ha a Hin) as (c & Hc & H). eapply new_arg_Ez; eassumption. }
  assert (HP: proj_ok o) by (apply Rgt_not_eq, proj_den; assumption).
  assert (HJ0 := compute_J_lin e o s J args Hcur Ho Hpol Hsrc HA HL).
  destruct (linear_gradient_dir e o s rho J args He Hpol HC Hsrc HN Hrho HP HS Hcur Ho HL HA HG) as (s2 & g & Sn & G1 & G2 & G3 & G4).
  do 4 eexists. split; [exact HJ0|]. split; [exact G1|].
  set (v := step_vector m g).
  set (d := fun k => if Req_EM_T (o_design o k) 1 then free_velocity (rho k) (v k) else 0%R).
  destruct (loop_state_value e o s s2 J args rho G2 Hpol) as (_ & L2 & L3 & L4 & L5).
  assert (HC2: consistent s2) by (destruct G2 as [-> | (E & _ & ->)]; exact HC).
  assert (HR2: s_rho (snd (upd_arglist (List.map (fun a => field_map s (oa_comp a) (lin_solution e s)) args) o, s2)) = Val rho) by (cbn [snd]; congruence).
  (* the step follows the line rho + t d *)
  assert (Hline: exists t0, (0 < t0)%R /\ forall t, (0 < t < t0)%R -> forall k, k < s_M s ->
     clip01 (rho k + o_design o k * t * v k)%R = rho_dir rho d t k).
  { assert (H: forall k, k < s_M s -> exists t0, (0 < t0)%R /\ forall t, (Rabs t < t0)%R -> (0 < t)%R -> clip01 (rho k + o_design o k * t * v k)%R = rho_dir rho d t k).
    { intros k Hk. unfold rho_dir, d. destruct (Req_EM_T (o_design o k) 1) as [E|E].
      - destruct (clip_line (rho k) (v k) (Hr k Hk)) as (t0 & Ht0 & H). exists t0. split; [exact Ht0|]. intros t Ht Hpos. rewrite Rabs_pos_eq in Ht by lra. rewrite E.
        rewrite <- H by lra. f_equal. ring.
      - exists 1%R. split; [lra|]. intros t _ _. destruct (Hdes k) as [E0|E0]; [|contradiction]. rewrite E0. specialize (Hr k Hk).
        replace (rho k + 0 * t * v k)%R with (rho k) by ring. unfold clip01. destruct (Rlt_dec (rho k) 0); [lra|]. destruct (Rlt_dec 1 (rho k)); lra. }
    destruct (uniform_delta _ _ H) as (t0 & Ht0 & H'). exists t0. split; [exact Ht0|]. intros t Ht k Hk. apply H'; [exact Hk|rewrite Rabs_pos_eq; lra|lra]. }
  destruct Hline as (t0 & Ht0 & Hline).
  (* the value at the start of the line *)
  set (f := fun t => lin_value e o s J args (rho_dir rho d t)).
  assert (H0: f 0%R = pf_val J (List.map (fun a => field_map s (oa_comp a) (lin_solution e s)) args)).
  { unfold f, lin_value. specialize (HG _ _ HJ0). cbn [fst stored_args upd_arglist o_arglist] in HG. apply (gradient_veq _ _ _ _ _ HG).
    - rewrite !map_length. reflexivity.
    - intros i Hi. rewrite map_length in Hi. rewrite !(nth_map_arg _ args i vzero (mkArg Ez false grad_linear_Ez) Hi). apply field_map_veq; [exact Hpol|].
      destruct (nonsingular_near_dir o s rho d Hpol HC HP HS HN) as (r & Hr0 & HNr).
      apply (solves_unique (s_M s) (s_A s) _ _ (rhs s) HN); [|apply lin_solution_solves; assumption].
      eapply solves_ext; [apply (in_step_A_dir o s rho d Hpol HC HS)|apply veq_refl|].
      apply (lin_solution_solves e (with_density o s (rho_dir rho d 0%R)) He). apply HNr. rewrite Rabs_R0. exact Hr0. }
  (* its derivative *)
  destruct (G4 d) as [_ HDf]. change (is_derive f 0%R (rsum (s_M s) (fun j => rmv (s_M s) (o_W o) d j * Sn j)%R)) in HDf.
  assert (EL: rsum (s_M s) (fun j => rmv (s_M s) (o_W o) d j * Sn j)%R = rsum (s_M s) (fun k => d k * g k)%R).
  { transitivity (rsum (s_M s) (fun j => rsum (s_M s) (fun k => o_W o j k * d k * Sn j))%R).
    - apply rsum_ext. intros j _. unfold rmv. rewrite Rmult_comm, <- rsum_scal. apply rsum_ext. intros; ring.
    - rewrite rsum_swap. apply rsum_ext. intros k Hk. rewrite G3, <- rsum_scal. apply rsum_ext. intros j Hj.
      unfold d. destruct (Req_EM_T (o_design o k) 1) as [E|E]; [|ring]. rewrite (HW k j Hk Hj E). ring. }
  rewrite EL in HDf.
  assert (HB: exists bound, (0 < bound <= t0)%R /\ forall t, (0 < t < bound)%R ->
     (can_improve s (o_design o) rho g -> (f 0 < f t)%R) /\ (~ can_improve s (o_design o) rho g -> forall k, k < s_M s -> d k = 0%R)).
  { assert (HV: forall k, exists c, (0 < c)%R /\ v k = (c * g k)%R) by (intro k; apply step_vector_scale).
    assert (Hz: ~ can_improve s (o_design o) rho g -> forall k, k < s_M s -> d k = 0%R).
    { intros N k Hk. unfold d. destruct (Req_EM_T (o_design o k) 1) as [E|E]; [|reflexivity]. destruct (HV k) as (c & Hc & ->).
      apply (velocity_gain (rho k) c (g k) Hc); [apply Hr, Hk|]. intro Q. apply N. exists k. auto. }
    assert (Hp: can_improve s (o_design o) rho g -> (0 < rsum (s_M s) (fun k => d k * g k))%R).
    { intros (p & Hp & Hd & Q). apply rsum_pos.
      - intros k _. unfold d. destruct (Req_EM_T (o_design o k) 1); [|lra]. destruct (HV k) as (c & Hc & ->). apply velocity_gain, Hc.
      - exists p. split; [exact Hp|]. unfold d. destruct (Req_EM_T (o_design o p) 1); [|contradiction]. destruct (HV p) as (c & Hc & ->). apply velocity_gain; assumption. }
    destruct (Rlt_dec 0 (rsum (s_M s) (fun k => d k * g k)%R)) as [H1|H1].
    - destruct (derive_increases f _ HDf H1) as (b & Hbp & Hinc). exists (Rmin b t0). split; [split; [apply Rmin_pos; assumption|apply Rmin_r]|].
      intros t Ht. assert (Q := Rmin_l b t0). split; [intros _; apply Hinc; lra|exact Hz].
    - exists t0. split; [lra|]. intros t _. split; [intro Q; exfalso; apply H1, Hp, Q|exact Hz]. }
  destruct HB as (bound & Hbound & HB). exists bound. split; [lra|]. intros step Hstep.
  destruct (first_iteration e m b1 b2 o s rho J args g _ Hm Hcur Ho Hpol Hsrc HA HL Hms Hrho G1 HR2 step) as (o1 & HS1 & Hc1 & HR). cbn [snd] in HR.
  set (rho1 := fun k => clip01 (rho k + o_design o k * step * step_vector m g k)%R) in *.
  assert (Ho1: o_objective o1 = set_J J args) by (destruct HS1 as [-> _]; exact Ho).
  assert (HJ1 := compute_J_lin e o1 (with_density o s2 rho1) J args Hc1 Ho1).
  assert (Hpol2: s_pol s2 = PolEz) by congruence.
  specialize (HJ1 Hpol2).
  assert (Hsrc2: nd_size (s_src (with_density o s2 rho1)) = s_M (with_density o s2 rho1)).
  { change (s_src (with_density o s2 rho1)) with (s_src s2). change (s_M (with_density o s2 rho1)) with (s_M s2). congruence. }
  specialize (HJ1 Hsrc2 HA HL).
  do 3 eexists. split; [exact HR|]. split; [exact HJ1|].
  assert (EJ: pf_val J (List.map (fun a => field_map (with_density o s2 rho1) (oa_comp a) (lin_solution e (with_density o s2 rho1))) args) = f step).
  { unfold f. rewrite <- (lin_value_below e o s J args rho1) by (intros k Hk; apply Hline; [lra|exact Hk]).
    destruct (loop_state_value e o s s2 J args rho1 G2 Hpol) as (<- & _). unfold lin_value. f_equal. apply map_ext. intro a. apply field_map_density; assumption. }
  rewrite EJ, <- H0. destruct (HB step Hstep) as [B1 B2]. split; [exact B1|]. intro N. specialize (B2 N). split.
  - unfold f. apply lin_value_below. intros k Hk. unfold rho_dir. rewrite (B2 k Hk). ring.
  - exists rho1. split; [reflexivity|]. intros k Hk. unfold rho1. fold v. rewrite (Hline step ltac:(lra) k Hk). unfold rho_dir. rewrite (B2 k Hk). ring.
Qed.

(** without a filter nothing is asked of the matrix *)
Corollary C85_small_step_improves_without_filter :
  forall e o s rho J args ob design eps_m eta beta fs nls m b1 b2,
  solver_exact e ->
  s_pol s = PolEz -> consistent s -> nd_size (s_src s) = s_M s -> nonsingular (s_M s) (s_A s) ->
  s_rho s = Val rho -> in_step o s rho -> (forall k, k < s_M s -> (0 <= rho k <= 1)%R) ->
  Objective J args = Ok ob ->
  (forall a, In a args -> exists c, (c = "Ez" \/ c = "Hx" \/ c = "Hy")%string /\ new_obj_arg c false = Ok a) ->
  (forall k, design k = 0%R \/ design k = 1%R) ->
  Optimization ob s design eps_m None eta beta fs nls None = Ok o ->
  (0 < beta)%R -> (0 <= eta <= 1)%R ->
  differentiable_at_fields e o s J ->
  (m = MGD \/ m = MADAM /\ (0 <= b1 < 1)%R /\ (0 <= b2 < 1)%R) ->
  exists st0 J0 st g, compute_J e (o, s) = (st0, Ok J0) /\ compute_dJ e (o, s) = (st, Ok g) /\
  exists bound, (0 < bound)%R /\ forall step, (0 < step < bound)%R ->
    exists st1 st2 J1, run e m 1 step b1 b2 (o, s) = (st1, Ok tt) /\ compute_J e st1 = (st2, Ok J1) /\
      (can_improve s design rho g -> (J0 < J1)%R) /\
      (~ can_improve s design rho g -> J1 = J0).
Proof.
  intros e o s rho J args ob design eps_m eta beta fs nls m b1 b2 He Hpol HC Hsrc HN Hrho HS Hr Hob Ha Hdes HO Hb Het HG Hm.
  unfold Optimization in HO. injection HO as <-. set (o := mkOpt _ _ _ _ _ _ _ _ _ _ _ _ _) in *.
  destruct (C85_small_step_improves e o s rho J args ob m b1 b2 He Hpol HC Hsrc HN Hrho HS Hr Hob eq_refl Ha Hdes) as (st0 & J0 & st & g & H1 & H2 & bd & H3 & H4); try assumption; try reflexivity.
  - intros p j Hp Hj Hd. cbn [o o_W o_design]. cbn [o o_design] in Hd. unfold rId. destruct (Nat.eqb_spec j p) as [->|N]; [rewrite Nat.eqb_refl, Hd; ring|].
    destruct (Nat.eqb_spec p j); [congruence|ring].
  - exists st0, J0, st, g. split; [exact H1|]. split; [exact H2|]. exists bd. split; [exact H3|]. intros step Hs.
    destruct (H4 step Hs) as (st1 & st2 & J1 & Q1 & Q2 & Q3 & Q4). exists st1, st2, J1. split; [exact Q1|]. split; [exact Q2|]. split; [exact Q3|]. intro N. apply Q4, N.
Qed.

Lemma rmv_id M x k : k < M -> rmv M rId x k = x k.
Proof.
  intro Hk. unfold rmv, rId. rewrite (rsum_single M k); [rewrite Nat.eqb_refl; ring|exact Hk|].
  intros j _ Hj. destruct (Nat.eqb_spec k j); [congruence|ring].
Qed.

(** A case where an improvement is possible: 2 x 2 pixels, all in the design region, density 1/2
    everywhere, a uniform source; the objective is the total intensity.  Changing all densities
    together changes the intensity, so the gradient is not zero. *)
Definition up_design : rvec := fun _ => 1%R.
Definition up_rho : rvec := fun _ => (1 / 2)%R.
Definition up_args : list obj_arg := [mkArg Ez false grad_linear_Ez].
Definition up_opt : opt := mkOpt (set_J (intensity 4 1) up_args) up_design rId (1 / 2) 10 5 "linear" "hybrid" None [] [] false None.
Definition up_eps (t : R) : R := (1 + rhot2rhob (1 / 2 + t) (1 / 2) 10 * (5 - 1))%R.
Lemma up_eps_at t k : k < 4 -> rho2eps 4 (rho_dir up_rho (fun _ => 1%R) t) 5 rId (1 / 2) 10 k = up_eps t.
Proof.
  intro Hk. unfold rho2eps, rhob2eps, up_eps. do 3 f_equal. rewrite rho2rhot_dir. unfold rho2rhot.
  rewrite !(rmv_id 4) by exact Hk. unfold up_rho. ring.
Qed.
Lemma up_solution s0 t : fam_sim "Ez" 2 2 0 0 (fun _ => 1%R) = Ok s0 -> (Rabs t < 1 / 2)%R ->
  forall k, k < 4 -> lin_solution ex_env (with_density up_opt (upd_src (mkNd 2 2 (fun _ => RtoC 1)) s0) (rho_dir up_rho (fun _ => 1%R) t)) k
    = (Ci / RtoC (ex_omega * EPSILON_0 * up_eps t))%C.
Proof.
  intros H0 Ht. set (r := rho_dir up_rho (fun _ => 1%R) t).
  destruct (Simulation_fields _ _ _ _ _ _ _ H0) as (E1 & E2 & E3 & E4 & E5 & E6 & E7 & E8 & P1 & P2 & E9 & EP & _ & _).
  specialize (E9 _ _ eq_refl). specialize (EP eq_refl). cbn [nd_nx nd_ny] in *. change (Z.to_nat (Z.of_nat 0)) with 0 in E9.
  assert (HO := ex_omega_pos). assert (PE := EPSILON_0_pos).
  apply Rabs_def2 in Ht.
  destruct (fam_facts 2 2 0 0 (fun _ => 1%R) s0 up_opt (fun _ => RtoC 1) r H0) as (F1 & F2 & F3 & F4 & F5 & F6 & F7 & _); try lia.
  { intros k Hk. apply fam_eps_ge1; try (cbn; lra); [exact Hk|]. unfold r, rho_dir, up_rho. lra. }
  cbv zeta in F4, F7. set (s0' := upd_src _ s0) in *. set (s := with_density up_opt s0' r) in *.
  assert (HM: s_M s0' = 2 * 2) by (unfold s_M, s0'; cbn; rewrite E3, E4; reflexivity).
  assert (HE: (1 / 2 < up_eps t)%R).
  { rewrite <- (up_eps_at t 0 ltac:(lia)). change 4 with (2 * 2). apply (fam_eps_ge1 (2 * 2) r 5 (1 / 2) 10 0); try lra; [lia|]. unfold r, rho_dir, up_rho. lra. }
  assert (HW: (0 < ex_omega * EPSILON_0 * up_eps t)%R) by (apply Rmult_lt_0_compat; [apply Rmult_lt_0_compat|]; lra).
  assert (HC0: consistent s0') by (apply Simulation_consistent in H0; exact H0).
  change 4 with (2 * 2). rewrite <- HM. change (s_M s0') with (s_M s).
  apply (solves_unique (s_M s) (s_A s) _ _ (rhs s) F4); [apply lin_solution_solves; [apply ex_env_exact|exact F4]|].
  apply solves_mv. intros k Hk. change (s_M s) with (s_M s0') in *.
  destruct (with_density_A up_opt s0' r EP HC0) as (_ & _ & HA). unfold s at 1. rewrite HA by exact Hk.
  rewrite HM in *.
  assert (EA: s_A s0' = fst (construct_A ex_omega (0, INR 2 * 1)%R (0, INR 2 * 1)%R 2 2 (cvec (fun _ => 1%R)) (0,0) PolEz 1 true)).
  { unfold fam_sim, Simulation in H0. destruct (check_inputs _ _ _ _) eqn:EC; [|discriminate]. injection H0 as <-. reflexivity. }
  rewrite EA.
  rewrite (uniform_row ex_omega 2 2 _ _ 1 1 _ k ltac:(lia) ltac:(lia) (dL_new 2 2 1 ltac:(lia) ltac:(lia)) ltac:(lra) Hk).
  change (2 * 2) with 4. rewrite (up_eps_at t k Hk : rho2eps 4 r (o_eps_m up_opt) (o_W up_opt) (o_eta up_opt) (o_beta up_opt) k = _).
  unfold kap. change (s_omega s0') with (s_omega s0). change (s_L0 s0') with (s_L0 s0). change (s_eps s0') with (s_eps s0). rewrite E1, E2, E5. cbn [nd_buf].
  change (rhs s k) with (RtoC 1 * Ci * RtoC (s_omega s0))%C. rewrite E1.
  rewrite <- Cmult_plus_distr_r, <- RtoC_plus.
  replace (ex_omega ^ 2 * EPSILON_0 * 1 + ex_omega ^ 2 * EPSILON_0 * 1 * (up_eps t - 1))%R with (ex_omega * (ex_omega * EPSILON_0 * up_eps t))%R by ring.
  rewrite (RtoC_mult ex_omega (ex_omega * EPSILON_0 * up_eps t)). field. apply RtoC_neq0. lra.
Qed.
Example C85_met :
  exists s0 ob, fam_sim "Ez" 2 2 0 0 (fun _ => 1%R) = Ok s0 /\
  new_obj_arg "Ez" false = Ok (mkArg Ez false grad_linear_Ez) /\ Objective (intensity 4 1) up_args = Ok ob /\
  let s := with_density up_opt (upd_src (mkNd 2 2 (fun _ => RtoC 1)) s0) up_rho in
  s_pol s = PolEz /\ consistent s /\ nd_size (s_src s) = s_M s /\ nonsingular (s_M s) (s_A s) /\
  s_rho s = Val up_rho /\ in_step up_opt s up_rho /\ (forall k, k < s_M s -> (0 <= up_rho k <= 1)%R) /\
  Optimization ob s up_design 5 None (1 / 2) 10 "linear" "hybrid" None = Ok up_opt /\
  differentiable_at_fields ex_env up_opt s (intensity 4 1) /\
  exists st g, compute_dJ ex_env (up_opt, s) = (st, Ok g) /\ can_improve s up_design up_rho g.
Proof.
  destruct (fam_sim_ok "Ez" 2 2 0 0 (fun _ => 1%R) (or_introl eq_refl)) as [s0 H0].
  exists s0, (set_J (intensity 4 1) up_args). split; [exact H0|]. split; [reflexivity|]. split; [reflexivity|]. intro s.
  destruct (fam_facts 2 2 0 0 (fun _ => 1%R) s0 up_opt (fun _ => RtoC 1) up_rho H0) as (F1 & F2 & F3 & F4 & F5 & F6 & F7 & _); try lia.
  { intros k Hk. apply fam_eps_ge1; try (cbn; lra); [exact Hk|]. unfold up_rho. lra. }
  fold s in F1, F2, F3, F4, F5, F6, F7. change (2 * 2) with 4 in F7.
  assert (HG: differentiable_at_fields ex_env up_opt s (intensity 4 1)) by (intros st1 J0 _; rewrite F7; apply intensity_gradient).
  split; [exact F1|]. split; [exact F2|]. split; [exact F3|]. split; [exact F4|]. split; [exact F5|]. split; [exact F6|].
  split; [intros k _; unfold up_rho; lra|]. split; [reflexivity|]. split; [exact HG|].
  assert (HP: proj_ok up_opt) by (apply Rgt_not_eq, proj_den; cbn; lra).
  assert (HA: List.Forall lin_Ez_arg up_args).
  { constructor; [|constructor]. apply (new_arg_Ez "Ez"); [auto|reflexivity]. }
  destruct (linear_gradient_dir ex_env up_opt s up_rho (intensity 4 1) up_args ex_env_exact F1 F2 F3 F4 F5 HP F6 eq_refl eq_refl eq_refl HA HG)
    as (s2 & g & Sn & G1 & _ & G3 & G4).
  do 2 eexists. split; [exact G1|].
  destruct (G4 (fun _ => 1%R)) as [_ HD]. rewrite F7 in *.
  assert (EL: rsum 4 (fun j => rmv 4 (o_W up_opt) (fun _ => 1%R) j * Sn j)%R = rsum 4 g).
  { apply rsum_ext. intros j Hj. rewrite G3. cbn [o_W up_opt o_design]. rewrite (rmv_id 4) by exact Hj. rewrite (rsum_single 4 j); [unfold rId, up_design; rewrite Nat.eqb_refl; ring|exact Hj|].
    intros q _ Hq. unfold rId. destruct (Nat.eqb_spec j q); [congruence|ring]. }
  rewrite EL in HD.
  (* the value along the line *)
  assert (HO := ex_omega_pos). assert (PE := EPSILON_0_pos). assert (HW: (0 < ex_omega * EPSILON_0)%R) by (apply Rmult_lt_0_compat; lra).
  assert (HV: forall t, (Rabs t < 1 / 2)%R -> lin_value ex_env up_opt s (intensity 4 1) up_args (rho_dir up_rho (fun _ => 1%R) t) = (4 / (ex_omega * EPSILON_0 * up_eps t) ^ 2)%R).
  { intros t Ht. unfold lin_value. cbn [up_args List.map oa_comp intensity pf_val List.length rsum List.nth field_map].
    assert (U := up_solution s0 t H0 Ht).
    change (with_density up_opt (upd_src (mkNd 2 2 (fun _ => RtoC 1)) s0) (rho_dir up_rho (fun _ => 1%R) t)) with (with_density up_opt s (rho_dir up_rho (fun _ => 1%R) t)) in U.
    rewrite !U by lia.
    assert (Hne: (ex_omega * EPSILON_0 * up_eps t)%R <> 0%R).
    { assert (1 / 2 < up_eps t)%R. { apply Rabs_def2 in Ht. rewrite <- (up_eps_at t 0 ltac:(lia)). change 4 with (2 * 2).
        apply (fam_eps_ge1 (2 * 2) (rho_dir up_rho (fun _ => 1%R) t) 5 (1 / 2) 10 0); try lra; [lia|]. unfold rho_dir, up_rho. lra. }
      apply Rgt_not_eq, Rmult_lt_0_compat; lra. }
    set (z := (ex_omega * EPSILON_0 * up_eps t)%R) in *.
    replace (Ci / RtoC z)%C with (Ci * RtoC (/ z))%C by (rewrite RtoC_inv by exact Hne; reflexivity).
    unfold Cnorm2. autorewrite with reim. field. exact Hne. }
  assert (HE0: (1 / 2 < up_eps 0)%R).
  { rewrite <- (up_eps_at 0 0 ltac:(lia)). change 4 with (2 * 2). apply (fam_eps_ge1 (2 * 2) (rho_dir up_rho (fun _ => 1%R) 0) 5 (1 / 2) 10 0); try lra; [lia|]. unfold rho_dir, up_rho. lra. }
  assert (HEd: is_derive up_eps 0%R ((5 - 1) * drhob_drhot (1 / 2) (1 / 2) 10 * 1)%R).
  { assert (Q := eps_dir_derive 4 up_rho 5 rId (1 / 2) 10 (fun _ => 1%R) 0 ltac:(apply Rgt_not_eq, proj_den; lra)).
    unfold rho2rhot in Q. rewrite !(rmv_id 4) in Q by lia. unfold up_rho at 2 in Q.
    apply (is_derive_ext _ up_eps _ _ (fun t => up_eps_at t 0 ltac:(lia))) in Q. exact Q. }
  assert (Hdp := drhob_pos (1 / 2) (1 / 2) 10 ltac:(lra) ltac:(lra)).
  assert (HX: is_derive (fun t => lin_value ex_env up_opt s (intensity 4 1) up_args (rho_dir up_rho (fun _ => 1%R) t)) 0%R
     (- (8 * ((5 - 1) * drhob_drhot (1 / 2) (1 / 2) 10 * 1)) / ((ex_omega * EPSILON_0) ^ 2 * up_eps 0 ^ 3))%R).
  { apply (is_derive_ext_loc (fun t => 4 / (ex_omega * EPSILON_0 * up_eps t) ^ 2)%R).
    - exists (mkposreal (1 / 2) ltac:(lra)). intros t Ht. symmetry. apply HV. unfold ball in Ht; cbn in Ht. unfold AbsRing_ball, abs, minus, plus, opp in Ht; cbn in Ht.
      rewrite Ropp_0, Rplus_0_r in Ht. exact Ht.
    - evar_last.
      + apply (is_derive_comp (fun x => 4 / (ex_omega * EPSILON_0 * x) ^ 2)%R up_eps 0%R).
        * auto_derive; [|reflexivity]. repeat split. apply Rgt_not_eq. assert (0 < ex_omega * EPSILON_0 * up_eps 0)%R by (apply Rmult_lt_0_compat; lra).
          match goal with |- (?x > 0)%R => replace x with ((ex_omega * EPSILON_0 * up_eps 0) ^ 2)%R by ring end. apply pow_lt. assumption.
        * exact HEd.
      + unfold scal; cbn. unfold mult; cbn. cut (up_eps 0 <> 0%R /\ ex_omega <> 0%R /\ EPSILON_0 <> 0%R); [intros (N1 & N2 & N3)|repeat split; lra]. field. repeat split; assumption. }
  assert (HU := is_derive_unique _ _ _ HD). rewrite (is_derive_unique _ _ _ HX) in HU.
  assert (HN: (- (8 * ((5 - 1) * drhob_drhot (1 / 2) (1 / 2) 10 * 1)) / ((ex_omega * EPSILON_0) ^ 2 * up_eps 0 ^ 3) < 0)%R).
  { unfold Rdiv. rewrite <- Ropp_mult_distr_l. apply Ropp_lt_gt_0_contravar. apply Rmult_lt_0_compat; [lra|]. apply Rinv_0_lt_compat, Rmult_lt_0_compat; apply pow_lt; lra. }
  assert (HM: exists p, p < 4 /\ (g p < 0)%R).
  { rewrite HU in HN. cbn [rsum] in HN. destruct (Rlt_dec (g 0) 0); [exists 0; split; [lia|assumption]|]. destruct (Rlt_dec (g 1) 0); [exists 1; split; [lia|assumption]|].
    destruct (Rlt_dec (g 2) 0); [exists 2; split; [lia|assumption]|]. destruct (Rlt_dec (g 3) 0); [exists 3; split; [lia|assumption]|]. lra. }
  destruct HM as (p & Hp & Hg). exists p. rewrite F7. split; [exact Hp|]. split; [reflexivity|]. right. unfold up_rho. lra.
Qed.
