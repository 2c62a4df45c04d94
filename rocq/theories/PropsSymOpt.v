(** C93: the optimizers keep the symmetry of a device. *)
From Coq Require Import Reals Lra Lia List ZArith Arith Bool String FunctionalExtensionality.
From Coquelicot Require Import Coquelicot.
From Verif Require Import Base Linear MCore MSim Spec PCore PSim PEx PropsCore PropsSolve PropsIter MFilter PFilter PropsFilter MOpt PDiff PGrad PExOpt PropsGrad POpt PropsOpt PropsOpt2 PSym PropsSym PropsAscent MPlot PropsShots.
Import ListNotations.
Local Open Scope nat_scope.

(* ------------------------------------------------------------------ *)
(** ** Sums and matrices under a renumbering of the pixels *)
Lemma csum_renumber n f g (u : nat -> C) : renumber n n f g -> csum n (fun k => u (f k)) = csum n u.
Proof.
  intros [H1 H2].
  transitivity (csum n (fun k => csum n (fun q => if Nat.eqb q (f k) then u q else RtoC 0))).
  { apply csum_ext. intros k Hk. rewrite (csum_single n (f k)); [rewrite Nat.eqb_refl; reflexivity|apply H1, Hk|].
    intros q _ Hq. destruct (Nat.eqb_spec q (f k)); [contradiction|reflexivity]. }
  rewrite csum_swap. apply csum_ext. intros q Hq. destruct (H2 q Hq) as [Hg Eg].
  rewrite (csum_single n (g q)); [rewrite Eg, Nat.eqb_refl; reflexivity|exact Hg|].
  intros k Hk Hn. destruct (Nat.eqb_spec q (f k)) as [->|]; [|reflexivity]. exfalso. apply Hn. symmetry. apply H1, Hk.
Qed.
Lemma rsum_renumber n f g (u : nat -> R) : renumber n n f g -> rsum n (fun k => u (f k)) = rsum n u.
Proof.
  intros [H1 H2].
  transitivity (rsum n (fun k => rsum n (fun q => if Nat.eqb q (f k) then u q else 0%R))).
  { apply rsum_ext. intros k Hk. rewrite (rsum_single n (f k)); [rewrite Nat.eqb_refl; reflexivity|apply H1, Hk|].
    intros q _ Hq. destruct (Nat.eqb_spec q (f k)); [contradiction|reflexivity]. }
  rewrite rsum_swap. apply rsum_ext. intros q Hq. destruct (H2 q Hq) as [Hg Eg].
  rewrite (rsum_single n (g q)); [rewrite Eg, Nat.eqb_refl; reflexivity|exact Hg|].
  intros k Hk Hn. destruct (Nat.eqb_spec q (f k)) as [->|]; [|reflexivity]. exfalso. apply Hn. symmetry. apply H1, Hk.
Qed.
Lemma moved_entries n f g A A' : renumber n n f g -> moved n n f g A A' -> forall i j, i < n -> j < n -> A' (f i) (f j) = A i j.
Proof.
  intros [H1 H2] HM i j Hi Hj. specialize (HM (fun k => if Nat.eqb k j then RtoC 1 else RtoC 0) i Hi). unfold mv in HM.
  rewrite (csum_single n (f j)) in HM; [|apply H1, Hj|].
  2: { intros k Hk Hn. destruct (Nat.eqb_spec (g k) j) as [E|]; [|ring]. exfalso. apply Hn. rewrite <- E. symmetry. apply H2, Hk. }
  rewrite (csum_single n j) in HM; [|exact Hj|].
  2: { intros k Hk Hn. destruct (Nat.eqb_spec k j); [contradiction|ring]. }
  rewrite (proj2 (H1 j Hj)), Nat.eqb_refl, !Cmult_1_r in HM. exact HM.
Qed.
Lemma entries_moved n f g A A' : renumber n n f g -> (forall i j, i < n -> j < n -> A' (f i) (f j) = A i j) -> moved n n f g A A'.
Proof.
  intros HR HE x k Hk. unfold mv. rewrite <- (csum_renumber n f g _ HR). apply csum_ext. intros j Hj.
  rewrite HE by assumption. rewrite (proj2 (proj1 HR j Hj)). reflexivity.
Qed.
Lemma moved_T n f g A A' : renumber n n f g -> moved n n f g A A' -> moved n n f g (mT A) (mT A').
Proof. intros HR HM. apply entries_moved; [exact HR|]. intros i j Hi Hj. unfold mT. apply (moved_entries n f g); assumption. Qed.

(** an array that does not change under the renumbering *)
Definition invariant {T} (n : nat) (f : nat -> nat) (v : nat -> T) : Prop := forall k, k < n -> v (f k) = v k.

(* ------------------------------------------------------------------ *)
(** ** One evaluation *)
Section Step.
Context (n : nat) (f g : nat -> nat) (HR : renumber n n f g).
Lemma sym_solution A x b : nonsingular n A -> moved n n f g A A -> invariant n f b -> solves n A x b -> invariant n f x.
Proof. intros HA HM Hb HX k Hk. apply (moved_solution n n f g A A x b x b); assumption. Qed.
Lemma sym_solver e A b x : solver_exact e -> nonsingular n A -> moved n n f g A A -> invariant n f b ->
  solver_direct e n A b (DEFAULT_SOLVER e) = Ok x -> invariant n f x.
Proof. intros He HA HM Hb HX. apply (sym_solution A x b); try assumption. exact (solver_direct_correct _ _ _ _ _ _ He HA HX). Qed.
Lemma sym_rmv W (x : rvec) : (forall i j, i < n -> j < n -> W (f i) (f j) = W i j) -> invariant n f x -> invariant n f (rmv n W x).
Proof.
  intros HW Hx k Hk. unfold rmv. rewrite <- (rsum_renumber n f g _ HR). apply rsum_ext. intros j Hj. rewrite HW, Hx by assumption. reflexivity.
Qed.
Lemma sym_eps W rho eps_m eta beta : (forall i j, i < n -> j < n -> W (f i) (f j) = W i j) -> invariant n f rho ->
  invariant n f (rho2eps n rho eps_m W eta beta).
Proof. intros HW Hr k Hk. unfold rho2eps. rewrite (sym_rmv W rho HW Hr k Hk : rho2rhot n rho W (f k) = rho2rhot n rho W k). reflexivity. Qed.
Lemma sym_sensitivity o rho E dA aj : (forall i j, i < n -> j < n -> o_W o (f i) (f j) = o_W o i j) -> invariant n f rho ->
  invariant n f E -> invariant n f dA -> invariant n f aj -> invariant n f (sensitivity n o rho E dA aj).
Proof.
  intros HW Hr HE HD Ha k Hk. unfold sensitivity. rewrite <- (csum_renumber n f g _ HR). apply csum_ext. intros j Hj.
  rewrite HW, HE, HD, Ha by assumption. rewrite (sym_rmv (o_W o) rho HW Hr j Hj : rho2rhot n rho (o_W o) (f j) = _). reflexivity.
Qed.
End Step.

(** the permittivity operator of the grid does not notice the renumbering *)
Definition grid_symmetry (s : sim) (f g : nat -> nat) : Prop :=
  renumber (s_M s) (s_M s) f g /\
  forall eps : rvec, invariant (s_M s) f eps ->
    let A := fst (construct_A (s_omega s) (s_xrange s) (s_yrange s) (s_Nx s) (s_Ny s) (cvec eps) (s_NPML s) (s_pol s) (s_L0 s) true) in
    moved (s_M s) (s_M s) f g A A.
(** density, permittivity and source are symmetric *)
Definition symmetric_state (f : nat -> nat) (s : sim) : Prop :=
  invariant (s_M s) f (nd_buf (s_src s)) /\ invariant (s_M s) f (nd_buf (s_eps s)) /\
  exists rho, s_rho s = Val rho /\ invariant (s_M s) f rho.
(** so are the design region and the filter *)
Definition symmetric_settings (n : nat) (f : nat -> nat) (o : opt) : Prop :=
  invariant n f (o_design o) /\ forall i j, i < n -> j < n -> o_W o (f i) (f j) = o_W o i j.
(** the objective treats symmetric fields symmetrically *)
Definition symmetric_objective (n : nat) (f : nat -> nat) (J : pyfun) : Prop :=
  forall Fs, (forall F, In F Fs -> invariant n f F) -> forall i, invariant n f (pf_grad J i Fs).

Lemma loop_sym e o s f g J X rho : solver_exact e -> s_pol s = PolEz -> renumber (s_M s) (s_M s) f g ->
  moved (s_M s) (s_M s) f g (s_A s) (s_A s) -> nonsingular (s_M s) (s_A s) ->
  symmetric_settings (s_M s) f o -> symmetric_objective (s_M s) f J ->
  s_fields s Ez = Some X -> invariant (s_M s) f X -> s_rho s = Val rho -> invariant (s_M s) f rho ->
  (forall F, In F (stored_args o) -> invariant (s_M s) f F) ->
  forall l i acc s' gr, (forall a, In a l -> a = Ez_lin) -> invariant (s_M s) f acc ->
  grad_loop e o (List.combine (List.combine (List.map oa_gradient l) (List.map (fun i => pf_dcall J i) (List.seq i (List.length l)))) l) acc s = (s', Ok gr) ->
  s' = s /\ invariant (s_M s) f gr.
Proof.
  intros He Hp HR HM HA [HD HW] HJ HX IX Hr Ir HF. induction l as [|a l IH]; intros i acc s' gr Hl Hacc H.
  - cbn in H. injection H as <- <-. auto.
  - cbn [List.map List.length List.seq List.combine grad_loop] in H. assert (a = Ez_lin) by (apply Hl; left; reflexivity). subst a.
    cbn [Ez_lin oa_gradient oa_nl run_grad] in H. rewrite Hp in H. cbn [pol_comp] in H. rewrite HX in H.
    unfold g_linear_Ez, pf_dcall at 1 in H. destruct (Nat.eqb _ (pf_arity J)); [|discriminate]. cbn [rbind] in H. unfold finish_linear_Ez in H.
    destruct (adjoint_linear_Ez e s _) as [aj|x] eqn:EA; [|discriminate]. unfold get_rho in H. rewrite Hr in H. cbn [rbind] in H.
    unfold adjoint_linear_Ez in EA.
    assert (IA: invariant (s_M s) f aj).
    { apply (sym_solver (s_M s) f g HR e (mT (s_A s)) (vneg (pf_grad J i (stored_args o))) aj He); [apply nonsingular_mT; exact HA|apply moved_T; assumption| |exact EA].
      intros k Hk. unfold vneg. rewrite (HJ _ HF i k Hk). reflexivity. }
    apply IH in H; [exact H|intros b Hb; apply Hl; right; exact Hb|].
    intros k Hk. cbv beta. rewrite (Hacc k Hk). f_equal. f_equal.
    apply (sym_sensitivity (s_M s) f g HR o rho X (dAdeps_lin o s) aj HW Ir IX); [|exact IA|exact Hk].
    intros j Hj. unfold dAdeps_lin. rewrite (HD j Hj). reflexivity.
Qed.

(** what stays true along a run *)
Definition sym_inv (J : pyfun) (args : list obj_arg) (f g : nat -> nat) (o : opt) (s : sim) : Prop :=
  lin_ready J args o s /\ o_current o = false /\ consistent s /\ grid_symmetry s f g /\
  symmetric_settings (s_M s) f o /\ symmetric_state f s.
Lemma sym_A s f g : s_pol s = PolEz -> consistent s -> grid_symmetry s f g -> symmetric_state f s ->
  moved (s_M s) (s_M s) f g (s_A s) (s_A s).
Proof.
  intros Hp HC [_ HG] (_ & He & _). destruct (consistent_A s HC) as [EA _]. rewrite EA. exact (HG _ He).
Qed.
Lemma sym_lin e s f g : solver_exact e -> s_pol s = PolEz -> consistent s -> grid_symmetry s f g -> symmetric_state f s ->
  nonsingular (s_M s) (s_A s) -> invariant (s_M s) f (lin_solution e s).
Proof.
  intros He Hp HC HG HS HN. unfold lin_solution. destruct (solver_direct e (s_M s) (s_A s) (rhs s) (DEFAULT_SOLVER e)) as [X|x] eqn:E.
  - apply (sym_solver (s_M s) f g (proj1 HG) e (s_A s) (rhs s) X He HN (sym_A s f g Hp HC HG HS)); [|exact E].
    intros k Hk. unfold rhs. rewrite (proj1 HS k Hk). reflexivity.
  - intros k Hk. reflexivity.
Qed.
Lemma grid_symmetry_same s s' f g : same_problem s s' -> grid_symmetry s f g -> grid_symmetry s' f g.
Proof.
  unfold same_problem, grid_symmetry, s_M. intros (E1 & E2 & E3 & E4 & E5 & E6 & E7 & E8 & E9 & E10 & _). rewrite E1, E2, E3, E4, E6, E7, E9, E10. auto.
Qed.
Lemma symmetric_state_same s s' f : same_problem s s' -> symmetric_state f s -> symmetric_state f s'.
Proof.
  unfold same_problem, symmetric_state, s_M. intros (E1 & E2 & E3 & E4 & E5 & E6 & E7 & E8 & E9 & E10 & E11 & _ & _ & _ & _ & E16 & _).
  rewrite E6, E7, E8, E11, E16. auto.
Qed.
Lemma sym_inv_frame J args f g o s o' s' : cfg o o' -> o_current o' = false -> same_tidy s s' -> sym_inv J args f g o s -> sym_inv J args f g o' s'.
Proof.
  intros HC Hc HS (H1 & _ & H3 & H4 & H5 & H6). assert (EM: s_M s' = s_M s) by (apply same_rhs, HS).
  split; [eapply lin_ready_frame; eassumption|]. split; [exact Hc|]. split; [eapply consistent_same; [apply HS|exact H3]|].
  split; [eapply grid_symmetry_same; [apply HS|exact H4]|]. split; [|eapply symmetric_state_same; [apply HS|exact H6]].
  rewrite EM. destruct HC as (_ & C2 & C3 & _). unfold symmetric_settings. rewrite C2, C3. exact H5.
Qed.
Lemma dJ_sym e J args f g o s o' s' gr : solver_exact e -> (forall a, In a args -> a = Ez_lin) -> symmetric_objective (s_M s) f J ->
  nonsingular (s_M s) (s_A s) -> sym_inv J args f g o s -> compute_dJ e (o, s) = ((o', s'), Ok gr) -> invariant (s_M s) f gr.
Proof.
  intros He Ha HJ HN ((H1 & H2 & (rho & H3) & H4 & H5 & H6 & H7) & Hc & HC & HG & HT & HS) H.
  unfold compute_dJ in H. rewrite (solve_lin_args e o s J args) in H by assumption.
  cbn [o_objective upd_arglist] in H. rewrite H4 in H. cbn [set_J ob_grads ob_dJ ob_args] in H.
  destruct (grad_loop _ _ _ _ _) as [s2 r2] eqn:E. injection H as _ <- ->.
  assert (IX := sym_lin e s f g He H1 HC HG HS HN).
  rewrite <- H6 in E. eapply (loop_sym e _ (solved e s) f g J (lin_solution e s) rho) in E; try assumption.
  - exact (proj2 E).
  - exact (proj1 HG).
  - exact (sym_A s f g H1 HC HG HS).
  - unfold solved. cbv zeta. cbn [upd_fields s_fields]. rewrite H1. reflexivity.
  - destruct HS as (_ & _ & rho' & E1 & E2). rewrite H3 in E1. injection E1 as ->. exact E2.
  - unfold stored_args. cbn [o_arglist upd_arglist]. intros F HF. apply in_map_iff in HF as (a & <- & Hi). rewrite (Ha a Hi). exact IX.
  - intros k Hk. reflexivity.
Qed.
Lemma eval_sym e J args f g o s o' s' gr : solver_exact e -> (forall a, In a args -> a = Ez_lin) -> symmetric_objective (s_M s) f J ->
  nonsingular (s_M s) (s_A s) -> sym_inv J args f g o s -> eval_step e (o, s) = ((o', s'), Ok gr) ->
  invariant (s_M s) f gr /\ sym_inv J args f g o s /\ cfg o o' /\ same_tidy s s'.
Proof.
  intros He Ha HJ HN HI H. assert (HI' := HI). destruct HI' as ((H1 & H2 & H3 & H4 & H5 & H6 & H7) & Hc & _).
  unfold eval_step, bind, modS in H. assert (EJ := compute_J_lin e o s J args Hc H4 H1 H2 H5 H6). rewrite EJ in H.
  destruct (compute_J_frame _ _ _ _ _ _ EJ) as (C1 & S1 & _). clear EJ.
  set (s1 := solved e s) in *. set (o1 := upd_arglist _ o) in *. cbn [fst snd] in H.
  set (o1' := push_obj _ o1) in *. assert (C1': cfg o o1') by exact C1.
  destruct (set_source_amplitude e (o1', s1)) as [[o2 s2] [[]|x]] eqn:E2; [|discriminate].
  apply set_amp_frame in E2 as (C2 & _ & _ & _ & K2 & L2). destruct L2 as [_ ->]; [exact H7|]. specialize (K2 eq_refl).
  destruct (compute_dJ e (o2, s1)) as [[o3 s3] r3] eqn:E3. injection H as -> -> ->.
  assert (I2: sym_inv J args f g o2 s1) by (eapply sym_inv_frame; [eapply cfg_trans; eassumption|exact K2|exact S1|exact HI]).
  split.
  - exact (dJ_sym e J args f g o2 s1 o' s' gr He Ha HJ HN I2 E3).
  - split; [exact HI|]. apply compute_dJ_frame in E3 as (C3 & S3 & _).
    split; [exact (cfg_trans _ _ _ (cfg_trans _ _ _ C1' C2) C3)|exact (same_tidy_trans _ _ _ S1 S3)].
Qed.
Lemma update_sym J args f g o s o1 s1 d st o' s' : sym_inv J args f g o s -> cfg o o1 -> same_tidy s s1 -> invariant (s_M s) f d ->
  update_rho d st (o1, s1) = ((o', s'), Ok tt) -> sym_inv J args f g o' s' /\ s_M s' = s_M s.
Proof.
  intros HI HC HS Hd H. assert (I1: sym_inv J args f g (upd_current false o1) s1) by (eapply sym_inv_frame; [exact HC|reflexivity|exact HS|exact HI]).
  assert (EM: s_M s1 = s_M s) by (apply same_rhs, HS). rewrite <- EM in Hd. rewrite <- EM. clear HI HC HS EM o s.
  apply update_rho_spec in H as [(_ & rho & Hr & E)|([x Hx] & _)]; [|discriminate]. injection E as -> ->.
  destruct I1 as ((H1 & H2 & H3 & H4 & H5 & H6 & H7) & Hc & HC & HG & HT & HS).
  cbn [o_objective o_max_shift upd_current] in H4, H7.
  destruct (with_density_A o1 s1 (fun k => clip01 (rho k + o_design o1 k * st * d k)%R) H1 HC) as (EM & _).
  assert (Ir: invariant (s_M s1) f (fun k => clip01 (rho k + o_design o1 k * st * d k)%R)).
  { intros k Hk. cbv beta. destruct HS as (_ & _ & rho' & E1 & E2). rewrite Hr in E1. injection E1 as <-.
    rewrite (E2 k Hk), (Hd k Hk), (proj1 HT k Hk : o_design o1 (f k) = o_design o1 k). reflexivity. }
  set (r := fun k => clip01 _) in *. split; [|exact EM]. 
  split; [split; [exact H1|split; [exact H2|split; [eexists; reflexivity|auto]]]|]. split; [reflexivity|].
  split; [apply set_eps_consistent|]. split; [exact HG|]. split; [exact HT|].
  split; [exact (proj1 HS)|]. split; [|exists r; split; [reflexivity|exact Ir]].
  exact (sym_eps (s_M s1) f g (proj1 HG) (o_W o1) r _ _ _ (proj2 HT) Ir).
Qed.
Lemma gen_sym {A} e (dir : A -> nat -> rvec -> rvec) next step J args f g n0 (P : A -> Prop) : solver_exact e ->
  (forall a, In a args -> a = Ez_lin) -> symmetric_objective n0 f J ->
  (forall a i gr, P a -> invariant n0 f gr -> invariant n0 f (dir a i gr) /\ P (next a gr)) ->
  forall n i a o s o' s', s_M s = n0 -> P a -> sym_inv J args f g o s ->
  (forall k o1 s1, k < n -> gen e dir next step k i a (o, s) = ((o1, s1), Ok tt) -> nonsingular (s_M s1) (s_A s1)) ->
  gen e dir next step n i a (o, s) = ((o', s'), Ok tt) -> sym_inv J args f g o' s' /\ s_M s' = n0.
Proof.
  intros He Ha HJ HP. induction n as [|n IH]; intros i a o s o' s' EM Pa HI HN H; [cbn in H; injection H as <- <-; auto|].
  cbn [gen] in H. unfold bind in H. destruct (eval_step e (o, s)) as [[o1 s1] [gr|x]] eqn:E1; [|discriminate].
  destruct (update_rho (dir a i gr) step (o1, s1)) as [[o2 s2] [[]|x]] eqn:E2; [|discriminate].
  destruct (eval_sym e J args f g o s o1 s1 gr) as (Ig & _ & C1 & S1); try assumption; [rewrite EM; exact HJ|apply (HN 0 o s); [lia|reflexivity]|].
  rewrite EM in Ig. destruct (HP a i gr Pa Ig) as [Id Pn].
  destruct (update_sym J args f g o s o1 s1 (dir a i gr) step o2 s2) as [I2 EM2]; try assumption; [rewrite EM; exact Id|].
  apply (IH (S i) (next a gr) o2 s2 o' s'); try assumption; [congruence|].
  intros k o3 s3 Hk H3. apply (HN (S k) o3 s3); [lia|]. cbn [gen]. unfold bind. rewrite E1, E2. exact H3.
Qed.
(** GD and ADAM keep every symmetry that the grid, the source, the design region, the filter
    and the objective share, for any number of steps *)
Theorem run_keeps_symmetry : forall e m n step b1 b2 J args f g o s o' s', m = MGD \/ m = MADAM -> solver_exact e ->
  lin_ready J args o s -> (forall a, In a args -> a = Ez_lin) -> consistent s ->
  grid_symmetry s f g -> symmetric_objective (s_M s) f J -> symmetric_settings (s_M s) f o -> symmetric_state f s ->
  (forall k o1 s1, k < n -> run e m k step b1 b2 (o, s) = ((o1, s1), Ok tt) -> nonsingular (s_M s1) (s_A s1)) ->
  run e m n step b1 b2 (o, s) = ((o', s'), Ok tt) -> symmetric_state f s' /\ s_M s' = s_M s.
Proof.
  intros e m n step b1 b2 J args f g o s o' s' Hm He HR Ha HC HG HJ HT HS HN H.
  assert (HI: sym_inv J args f g (upd_current false o) s).
  { split; [exact HR|]. split; [reflexivity|]. split; [exact HC|]. split; [exact HG|]. split; [exact HT|exact HS]. }
  destruct (proj1 (proj2 (proj2 HR))) as [rho Hr]. unfold run in H, HN. cbn [snd fst] in H, HN. rewrite Hr in H, HN.
  destruct Hm as [-> | ->].
  - rewrite (gen_GD e step n 0) in H.
    eapply (gen_sym e gd_dir gd_next step J args f g (s_M s) (fun _ => True)) in H; try eassumption; auto.
    + destruct H as [(_ & _ & _ & _ & _ & H) E]. auto.
    + intros k o1 s1 Hk H1. apply (HN k o1 s1 Hk). rewrite (gen_GD e step k 0). exact H1.
  - rewrite gen_ADAM in H.
    eapply (gen_sym e (ad_dir b1 b2) (ad_next b1 b2) step J args f g (s_M s) (fun a => invariant (s_M s) f (fst a) /\ invariant (s_M s) f (snd a))) in H; try eassumption; auto.
    + destruct H as [(_ & _ & _ & _ & _ & H) E]. auto.
    + intros [mm v] i gr [I1 I2] Ig. cbn [fst snd] in I1, I2. unfold ad_dir, ad_next. cbn [fst snd].
      split; [|split]; intros k Hk; rewrite ?(I1 k Hk), ?(I2 k Hk), ?(Ig k Hk); reflexivity.
    + split; intros k Hk; reflexivity.
    + intros k o1 s1 Hk H1. apply (HN k o1 s1 Hk). rewrite gen_ADAM. exact H1.
Qed.

(* ------------------------------------------------------------------ *)
(** ** The symmetries of the grid *)
Definition refl_x (Nx Ny k : nat) : nat := pix Ny (Nx - 1 - k / Ny) (k mod Ny).
Definition refl_y (Ny k : nat) : nat := pix Ny (k / Ny) (Ny - 1 - k mod Ny).
Definition shift_xy (Nx Ny a b k : nat) : nat := pix Ny ((k / Ny + a) mod Nx) ((k mod Ny + b) mod Ny).
Definition exchange (N k : nat) : nat := pix N (k mod N) (k / N).
Lemma pax_sh sd omega L0 r d N Np a u u' i : i < N -> Np = 0 \/ a = 0 -> (forall c, c < N -> u' (sh N a c) = u c) ->
  pax sd omega L0 r d N Np u' (sh N a i) = pax sd omega L0 r d N Np u i.
Proof.
  intros Hi [-> | ->] H.
  - rewrite !pax_no_pml. apply ax_sh; assumption.
  - assert (E: forall c, c < N -> sh N 0 c = c) by (intros c Hc; unfold sh; rewrite Nat.add_0_r; apply Nat.mod_small; exact Hc).
    rewrite E by assumption. apply pax_ext; [assumption|]. intros k Hk. rewrite <- (E k Hk) at 1. apply H, Hk.
Qed.
Section Grids.
Variables (s : sim).
Hypotheses (HP : physical s) (HE : s_pol s = PolEz).
Lemma grid_shift a b : fst (s_NPML s) = 0 \/ a = 0 -> snd (s_NPML s) = 0 \/ b = 0 ->
  exists g, grid_symmetry s (shift_xy (s_Nx s) (s_Ny s) a b) g.
Proof.
  intros Ha Hb. destruct (sd_neq0 s HP) as [Hdx Hdy]. destruct HP as (_ & _ & _ & _ & HNx & HNy). unfold grid_symmetry, s_M. cbv zeta. rewrite HE.
  set (Nx := s_Nx s) in *. set (Ny := s_Ny s) in *.
  set (g := fun k => pix Ny (sh Nx (Nx - a mod Nx) (k / Ny)) (sh Ny (Ny - b mod Ny) (k mod Ny))). exists g.
  assert (HRen := renumber_sh Nx Ny a b HNx HNy). fold g in HRen.
  set (f := fun k => pix Ny (sh Nx a (k / Ny)) (sh Ny b (k mod Ny))) in *.
  change (shift_xy Nx Ny a b) with f. split; [exact HRen|]. intros eps Heps.
  assert (Hf: forall i j, (j < Ny)%nat -> f (pix Ny i j) = pix Ny (sh Nx a i) (sh Ny b j)).
  { intros i j Hj. unfold f, pix. rewrite flat_div, flat_mod by assumption. reflexivity. }
  assert (Hg: forall i j, (i < Nx)%nat -> (j < Ny)%nat -> g (pix Ny (sh Nx a i) (sh Ny b j)) = pix Ny i j).
  { intros i j Hi Hj. rewrite <- Hf by assumption. apply HRen. apply flat_lt; assumption. }
  intros x k Hk. assert (Hi := flat_div_lt _ _ _ Hk). assert (Hj := flat_mod_lt _ _ _ Hk).
  rewrite <- (flat_eta Ny k HNy). change (k / Ny * Ny + k mod Ny)%nat with (pix Ny (k / Ny) (k mod Ny)).
  set (i := (k / Ny)%nat) in *. set (j := (k mod Ny)%nat) in *. rewrite Hf by assumption.
  rewrite !A_grid by (try apply sh_lt; assumption). f_equal; [f_equal|].
  - apply pax_sh; [assumption..|]. intros c Hc. f_equal. apply pax_sh; [assumption..|]. intros c' Hc'. rewrite Hg by assumption. reflexivity.
  - apply pax_sh; [assumption..|]. intros c Hc. f_equal. apply pax_sh; [assumption..|]. intros c' Hc'. rewrite Hg by assumption. reflexivity.
  - rewrite Hg by assumption. f_equal. unfold Ad_g. do 2 f_equal. unfold cvec. f_equal. rewrite <- Hf by assumption. apply Heps, flat_lt; assumption.
Qed.
Lemma grid_refl_x : fst (s_NPML s) = 0 -> grid_symmetry s (refl_x (s_Nx s) (s_Ny s)) (refl_x (s_Nx s) (s_Ny s)).
Proof.
  intros H0. destruct (sd_neq0 s HP) as [Hdx Hdy]. destruct HP as (_ & _ & _ & _ & HNx & HNy). unfold grid_symmetry, s_M. cbv zeta. rewrite HE.
  set (Nx := s_Nx s) in *. set (Ny := s_Ny s) in *.
  assert (HRen := renumber_mx Nx Ny HNx HNy). cbv zeta in HRen. change (fun k => pix Ny (mir Nx (k / Ny)) (k mod Ny)) with (refl_x Nx Ny) in HRen.
  split; [exact HRen|]. set (f := refl_x Nx Ny) in *. intros eps Heps.
  assert (Hf: forall i j, (j < Ny)%nat -> f (pix Ny i j) = pix Ny (mir Nx i) j).
  { intros i j Hj. unfold f, refl_x, pix. rewrite flat_div, flat_mod by assumption. reflexivity. }
  assert (Hg: forall i j, (i < Nx)%nat -> (j < Ny)%nat -> f (pix Ny (mir Nx i) j) = pix Ny i j).
  { intros i j Hi Hj. rewrite Hf by assumption. rewrite mir_mir by assumption. reflexivity. }
  intros x k Hk. assert (Hi := flat_div_lt _ _ _ Hk). assert (Hj := flat_mod_lt _ _ _ Hk).
  rewrite <- (flat_eta Ny k HNy). change (k / Ny * Ny + k mod Ny)%nat with (pix Ny (k / Ny) (k mod Ny)).
  set (i := (k / Ny)%nat) in *. set (j := (k mod Ny)%nat) in *. rewrite Hf by assumption.
  rewrite !A_grid by (try apply mir_lt; assumption). rewrite H0, !pax_no_pml.
  f_equal; [f_equal|].
  - etransitivity; [apply ax_ext; [apply mir_lt; assumption|]; intros c Hc; rewrite pax_no_pml; reflexivity|].
    etransitivity; [|symmetry; apply ax_ext; [assumption|]; intros c Hc; rewrite pax_no_pml; reflexivity].
    apply (ax_mir2 _ Nx (fun c => Ax_g (s_L0 s) Nx Ny PolEz true (cvec eps) (pix Ny c j))); [assumption|intros; reflexivity|].
    intros c Hc. rewrite Hg by assumption. reflexivity.
  - apply pax_ext; [assumption|]. intros c Hc. f_equal. apply pax_ext; [assumption|]. intros c' Hc'. rewrite Hg by assumption. reflexivity.
  - rewrite Hg by assumption. f_equal. unfold Ad_g. do 2 f_equal. unfold cvec. f_equal. rewrite <- Hf by assumption. apply Heps, flat_lt; assumption.
Qed.
Lemma grid_refl_y : snd (s_NPML s) = 0 -> grid_symmetry s (refl_y (s_Ny s)) (refl_y (s_Ny s)).
Proof.
  intros H0. destruct (sd_neq0 s HP) as [Hdx Hdy]. destruct HP as (_ & _ & _ & _ & HNx & HNy). unfold grid_symmetry, s_M. cbv zeta. rewrite HE.
  set (Nx := s_Nx s) in *. set (Ny := s_Ny s) in *.
  assert (HRen := renumber_my Nx Ny HNx HNy). cbv zeta in HRen. change (fun k => pix Ny (k / Ny) (mir Ny (k mod Ny))) with (refl_y Ny) in HRen.
  split; [exact HRen|]. set (f := refl_y Ny) in *. intros eps Heps.
  assert (Hf: forall i j, (j < Ny)%nat -> f (pix Ny i j) = pix Ny i (mir Ny j)).
  { intros i j Hj. unfold f, refl_y, pix. rewrite flat_div, flat_mod by assumption. reflexivity. }
  assert (Hg: forall i j, (i < Nx)%nat -> (j < Ny)%nat -> f (pix Ny i (mir Ny j)) = pix Ny i j).
  { intros i j Hi Hj. rewrite Hf by (apply mir_lt; assumption). rewrite mir_mir by assumption. reflexivity. }
  intros x k Hk. assert (Hi := flat_div_lt _ _ _ Hk). assert (Hj := flat_mod_lt _ _ _ Hk).
  rewrite <- (flat_eta Ny k HNy). change (k / Ny * Ny + k mod Ny)%nat with (pix Ny (k / Ny) (k mod Ny)).
  set (i := (k / Ny)%nat) in *. set (j := (k mod Ny)%nat) in *. rewrite Hf by assumption.
  rewrite !A_grid by (try apply mir_lt; assumption). rewrite H0, !pax_no_pml.
  f_equal; [f_equal|].
  - apply pax_ext; [assumption|]. intros c Hc. f_equal. apply pax_ext; [assumption|]. intros c' Hc'. rewrite Hg by assumption. reflexivity.
  - etransitivity; [apply ax_ext; [apply mir_lt; assumption|]; intros c Hc; rewrite pax_no_pml; reflexivity|].
    etransitivity; [|symmetry; apply ax_ext; [assumption|]; intros c Hc; rewrite pax_no_pml; reflexivity].
    apply (ax_mir2 _ Ny (fun c => Ay_g (s_L0 s) Nx Ny PolEz true (cvec eps) (pix Ny i c))); [assumption|intros; reflexivity|].
    intros c Hc. rewrite Hg by assumption. reflexivity.
  - rewrite Hg by assumption. f_equal. unfold Ad_g. do 2 f_equal. unfold cvec. f_equal. rewrite <- Hf by assumption. apply Heps, flat_lt; assumption.
Qed.
Lemma grid_exchange : s_Ny s = s_Nx s -> snd (s_NPML s) = fst (s_NPML s) -> s_yrange s = s_xrange s ->
  grid_symmetry s (exchange (s_Nx s)) (exchange (s_Nx s)).
Proof.
  intros EN EP ER. destruct (sd_neq0 s HP) as [Hdx Hdy]. destruct HP as (_ & _ & _ & _ & HNx & HNy). unfold grid_symmetry, s_M. cbv zeta.
  rewrite HE, EN, ER. unfold sdx, sdy, dL in Hdx, Hdy. rewrite EN in Hdy. rewrite ER in Hdy. cbn [fst snd] in Hdx, Hdy. set (N := s_Nx s) in *.
  assert (HRen := renumber_swap N N). change (fun k => pix N (k mod N) (k / N)) with (exchange N) in HRen.
  split; [exact HRen|]. set (f := exchange N) in *. intros eps Heps.
  assert (Hf: forall i j, (j < N)%nat -> f (pix N i j) = pix N j i).
  { intros i j Hj. unfold f, exchange, pix. rewrite flat_div, flat_mod by assumption. reflexivity. }
  intros x k Hk. assert (Hi := flat_div_lt _ _ _ Hk). assert (Hj := flat_mod_lt _ _ _ Hk).
  rewrite <- (flat_eta N k HNx). change (k / N * N + k mod N)%nat with (pix N (k / N) (k mod N)).
  set (i := (k / N)%nat) in *. set (j := (k mod N)%nat) in *. rewrite Hf by assumption.
  rewrite !A_grid by assumption. rewrite EP. unfold dL. cbn [fst snd].
  rewrite (Cplus_comm (pax Fwd (s_omega s) (s_L0 s) (s_xrange s) _ N _ (fun c => _ * pax _ _ _ _ _ _ _ (fun c' => x (f (pix N c' i))) c)%C j)).
  f_equal; [f_equal|].
  - apply pax_ext; [assumption|]. intros c Hc. f_equal. apply pax_ext; [assumption|]. intros c' Hc'. rewrite Hf by assumption. reflexivity.
  - apply pax_ext; [assumption|]. intros c Hc. f_equal. apply pax_ext; [assumption|]. intros c' Hc'. rewrite Hf by assumption. reflexivity.
  - rewrite Hf by assumption. f_equal. unfold Ad_g. do 2 f_equal. unfold cvec. f_equal. rewrite <- Hf by assumption. apply Heps, flat_lt; assumption.
Qed.
End Grids.

(* ------------------------------------------------------------------ *)
(** * C93 *)
(** the symmetries a device can have on this grid: reflections and shifts along an axis without
    PML, and the exchange of the axes of a square grid with equal layers *)
Definition symmetry_of_grid (s : sim) (f : nat -> nat) : Prop :=
  fst (s_NPML s) = 0 /\ f = refl_x (s_Nx s) (s_Ny s) \/
  snd (s_NPML s) = 0 /\ f = refl_y (s_Ny s) \/
  (s_Ny s = s_Nx s /\ snd (s_NPML s) = fst (s_NPML s) /\ s_yrange s = s_xrange s) /\ f = exchange (s_Nx s) \/
  exists a b, (fst (s_NPML s) = 0 \/ a = 0) /\ (snd (s_NPML s) = 0 \/ b = 0) /\ f = shift_xy (s_Nx s) (s_Ny s) a b.
Lemma symmetry_of_grid_ok s f : physical s -> s_pol s = PolEz -> symmetry_of_grid s f -> exists g, grid_symmetry s f g.
Proof.
  intros HP HE [[H ->]|[[H ->]|[[(H1 & H2 & H3) ->]|(a & b & H1 & H2 & ->)]]].
  - eexists. apply grid_refl_x; assumption.
  - eexists. apply grid_refl_y; assumption.
  - eexists. apply grid_exchange; assumption.
  - apply grid_shift; assumption.
Qed.
(** the statement, for a given set of symmetries *)
Definition runs_keep_symmetry (sym : sim -> (nat -> nat) -> Prop) : Prop :=
  forall e m n step b1 b2 J args f o s o' s', m = MGD \/ m = MADAM -> solver_exact e ->
  lin_ready J args o s -> (forall a, In a args -> new_obj_arg "Ez" false = Ok a) -> consistent s -> physical s ->
  sym s f ->
  symmetric_objective (s_M s) f J -> symmetric_settings (s_M s) f o -> symmetric_state f s ->
  (forall k o1 s1, k < n -> run e m k step b1 b2 (o, s) = ((o1, s1), Ok tt) -> nonsingular (s_M s1) (s_A s1)) ->
  run e m n step b1 b2 (o, s) = ((o', s'), Ok tt) ->
  exists rho', s_rho s' = Val rho' /\ invariant (s_M s) f rho' /\ invariant (s_M s) f (nd_buf (s_eps s')).
Theorem C93_optimizers_keep_symmetry : runs_keep_symmetry symmetry_of_grid.
Proof.
  intros e m n step b1 b2 J args f o s o' s' Hm He HR Ha HC HP HG HJ HT HS HN H.
  destruct (symmetry_of_grid_ok s f HP (proj1 HR) HG) as [g Hg].
  destruct (run_keeps_symmetry e m n step b1 b2 J args f g o s o' s' Hm He HR) as [(_ & H1 & rho' & H2 & H3) EM]; try assumption.
  - intros a Hi. specialize (Ha a Hi). cbn in Ha. injection Ha as <-. reflexivity.
  - rewrite EM in *. exists rho'. auto.
Qed.
(** the filter of a symmetric design region is symmetric when there are layers on all sides; no
    filter is symmetric in every case *)
Lemma raw_W Nx Ny px py Rr W : 0 < px -> 0 < py ->
  csr_matrix (filter_triplets (Z.of_nat Rr) (Z.of_nat Nx) (Z.of_nat Ny) (Z.of_nat px) (Z.of_nat py)) (Z.of_nat (Nx * Ny)) = Ok W ->
  forall i j i2 j2, i < Nx -> j < Ny -> i2 < Nx -> j2 < Ny ->
  (filtered Rr px Nx i /\ filtered Rr py Ny j -> W (pix Ny i j) (pix Ny i2 j2) = Rmax 0 (INR Rr - pixel_distance i j i2 j2)) /\
  (~ (filtered Rr px Nx i /\ filtered Rr py Ny j) -> W (pix Ny i j) (pix Ny i2 j2) = 0%R).
Proof.
  intros Hx Hy HW i j i2 j2 Hi Hj Hi2 Hj2. split; intro H.
  - rewrite <- cone_dist. unfold filtered in H. apply (W_entry Nx Ny px py Rr W HW); try lia. apply rowed_pml; [exact Hx|exact Hy|]. unfold filtered. lia.
  - apply (W_norow Nx Ny px py Rr W HW); [exact Hj|]. rewrite rowed_pml by assumption. exact H.
Qed.
Lemma W_symmetric Nx Ny px py Rr design W f g : 0 < px -> 0 < py -> get_W Nx Ny design (px, py) Rr = Ok W ->
  renumber (Nx * Ny) (Nx * Ny) f g -> invariant (Nx * Ny) f design ->
  (forall i j, i < Nx -> j < Ny -> exists i' j', f (pix Ny i j) = pix Ny i' j' /\ i' < Nx /\ j' < Ny /\
     (filtered Rr px Nx i' /\ filtered Rr py Ny j' <-> filtered Rr px Nx i /\ filtered Rr py Ny j) /\
     forall i2 j2 i2' j2', i2 < Nx -> j2 < Ny -> i2' < Nx -> j2' < Ny -> f (pix Ny i2 j2) = pix Ny i2' j2' -> pixel_distance i' j' i2' j2' = pixel_distance i j i2 j2) ->
  forall a b, a < Nx * Ny -> b < Nx * Ny -> W (f a) (f b) = W a b.
Proof.
  intros Hx Hy HG HR HD HF. apply get_W_form in HG as (W0 & HW & EW). cbv zeta in EW.
  assert (HNy: forall k, k < Nx * Ny -> 0 < Ny) by (intros; destruct Ny; lia).
  assert (H0: forall a b, a < Nx * Ny -> b < Nx * Ny -> W0 (f a) (f b) = W0 a b).
  { intros a b Ha Hb. rewrite <- (flat_eta Ny a (HNy a Ha)), <- (flat_eta Ny b (HNy b Hb)).
    assert (Ia := flat_div_lt _ _ _ Ha). assert (Ja := flat_mod_lt _ _ _ Ha). assert (Ib := flat_div_lt _ _ _ Hb). assert (Jb := flat_mod_lt _ _ _ Hb).
    change (a / Ny * Ny + a mod Ny) with (pix Ny (a / Ny) (a mod Ny)). change (b / Ny * Ny + b mod Ny) with (pix Ny (b / Ny) (b mod Ny)).
    set (i := a / Ny) in *. set (j := a mod Ny) in *. set (i2 := b / Ny) in *. set (j2 := b mod Ny) in *.
    destruct (HF i j Ia Ja) as (i' & j' & E1 & L1 & L2 & Q & D). destruct (HF i2 j2 Ib Jb) as (i2' & j2' & E2 & L3 & L4 & _ & _).
    rewrite E1, E2. destruct (raw_W Nx Ny px py Rr W0 Hx Hy HW i j i2 j2 Ia Ja Ib Jb) as [A1 A2].
    destruct (raw_W Nx Ny px py Rr W0 Hx Hy HW i' j' i2' j2' L1 L2 L3 L4) as [B1 B2].
    assert (DC: (filtered Rr px Nx i /\ filtered Rr py Ny j) \/ ~ (filtered Rr px Nx i /\ filtered Rr py Ny j)) by (unfold filtered; lia).
    destruct DC as [Hf|Hf]; [rewrite A1, B1 by tauto; rewrite (D i2 j2 i2' j2') by assumption; reflexivity|rewrite A2, B2 by tauto; reflexivity]. }
  assert (HS: forall b, b < Nx * Ny -> rsum (Nx * Ny) (fun c => W0 (f b) c) = rsum (Nx * Ny) (fun c => W0 b c)).
  { intros b Hb. rewrite <- (rsum_renumber (Nx * Ny) f g (fun c => W0 (f b) c) HR). apply rsum_ext. intros c Hc. apply H0; assumption. }
  intros a b Ha Hb. rewrite !EW. rewrite (HD a Ha), H0, (HS b Hb) by assumption.
  replace (Nat.eqb (f a) (f b)) with (Nat.eqb a b); [reflexivity|].
  destruct HR as [HR _]. destruct (Nat.eqb_spec a b) as [->|Hne]; [rewrite Nat.eqb_refl; reflexivity|].
  symmetry. apply Nat.eqb_neq. intro E. apply Hne. rewrite <- (proj2 (HR a Ha)), E. apply HR, Hb.
Qed.
Theorem C93_filter_symmetric : forall Nx Ny design px py Rr W f,
  get_W Nx Ny design (px, py) Rr = Ok W -> 0 < px -> 0 < py ->
  f = refl_x Nx Ny \/ f = refl_y Ny \/ (Ny = Nx /\ py = px /\ f = exchange Nx) ->
  invariant (Nx * Ny) f design ->
  forall a b, a < Nx * Ny -> b < Nx * Ny -> W (f a) (f b) = W a b.
Proof.
  intros Nx Ny design px py Rr W f HG Hx Hy Hf HD a b Ha Hb.
  assert (HNx: 0 < Nx) by (destruct Nx; cbn in Ha; lia). assert (HNy: 0 < Ny) by (destruct Ny; lia). revert a b Ha Hb.
  assert (PE: forall i j i2 j2, i < Nx -> j < Ny -> i2 < Nx -> j2 < Ny -> pix Ny i j = pix Ny i2 j2 -> i = i2 /\ j = j2).
  { intros i j i2 j2 _ Hj _ Hj2 E. unfold pix in E. assert (E1 := f_equal (fun k => k / Ny) E). assert (E2 := f_equal (fun k => k mod Ny) E).
    cbv beta in E1, E2. rewrite !flat_div in E1 by assumption. rewrite !flat_mod in E2 by assumption. auto. }
  assert (MI: forall N i i2, i < N -> i2 < N -> ((INR (N - 1 - i) - INR (N - 1 - i2)) ^ 2 = (INR i - INR i2) ^ 2)%R).
  { intros N i i2 Hi Hi2. rewrite !minus_INR by lia. ring. }
  destruct Hf as [-> | [-> | (-> & -> & ->)]].
  - apply (W_symmetric Nx Ny px py Rr design W (refl_x Nx Ny) (refl_x Nx Ny)); try assumption; [apply renumber_mx; assumption|].
    assert (E: forall i j, i < Nx -> j < Ny -> refl_x Nx Ny (pix Ny i j) = pix Ny (Nx - 1 - i) j).
    { intros i j Hi Hj. unfold refl_x, pix. rewrite flat_div, flat_mod by assumption. reflexivity. }
    intros i j Hi Hj. exists (Nx - 1 - i), j. split; [apply E; assumption|]. split; [lia|]. split; [exact Hj|]. split; [unfold filtered; lia|].
    intros i2 j2 i2' j2' H1 H2 H3 H4 H5. rewrite E in H5 by assumption. apply PE in H5 as [<- <-]; try lia. unfold pixel_distance. rewrite MI by assumption. reflexivity.
  - apply (W_symmetric Nx Ny px py Rr design W (refl_y Ny) (refl_y Ny)); try assumption; [apply (renumber_my Nx Ny); assumption|].
    assert (E: forall i j, i < Nx -> j < Ny -> refl_y Ny (pix Ny i j) = pix Ny i (Ny - 1 - j)).
    { intros i j Hi Hj. unfold refl_y, pix. rewrite flat_div, flat_mod by assumption. reflexivity. }
    intros i j Hi Hj. exists i, (Ny - 1 - j). split; [apply E; assumption|]. split; [exact Hi|]. split; [lia|]. split; [unfold filtered; lia|].
    intros i2 j2 i2' j2' H1 H2 H3 H4 H5. rewrite E in H5 by assumption. apply PE in H5 as [<- <-]; try lia. unfold pixel_distance. rewrite MI by assumption. reflexivity.
  - apply (W_symmetric Nx Nx px px Rr design W (exchange Nx) (exchange Nx)); try assumption; [apply renumber_swap|].
    assert (E: forall i j, i < Nx -> j < Nx -> exchange Nx (pix Nx i j) = pix Nx j i).
    { intros i j Hi Hj. unfold exchange, pix. rewrite flat_div, flat_mod by assumption. reflexivity. }
    intros i j Hi Hj. exists j, i. split; [apply E; assumption|]. split; [exact Hj|]. split; [exact Hi|]. split; [tauto|].
    intros i2 j2 i2' j2' H1 H2 H3 H4 H5. rewrite E in H5 by assumption. apply PE in H5 as [<- <-]; try lia. unfold pixel_distance. rewrite Rplus_comm. reflexivity.
Qed.
Theorem C93_no_filter_symmetric : forall n f g, renumber n n f g -> forall a b, a < n -> b < n -> rId (f a) (f b) = rId a b.
Proof.
  intros n f g [HR _] a b Ha Hb. unfold rId. destruct (Nat.eqb_spec a b) as [->|Hne]; [rewrite Nat.eqb_refl; reflexivity|].
  destruct (Nat.eqb_spec (f a) (f b)) as [E|]; [|reflexivity]. exfalso. apply Hne. rewrite <- (proj2 (HR a Ha)), E. apply HR, Hb.
Qed.

(* ------------------------------------------------------------------ *)
(** ** Example: a device with layers on all sides, symmetric about the diagonal *)
Definition grid_of (s : sim) := (s_omega s, s_L0 s, s_Nx s, s_Ny s, s_xrange s, s_yrange s, s_NPML s, s_pol s).
Lemma struct_grid s s' : struct s s' -> grid_of s' = grid_of s.
Proof. intros [[v H] _]. unfold same_problem in H. cbn in H. unfold grid_of. destruct H as (-> & -> & -> & -> & _ & -> & -> & _ & -> & -> & _). reflexivity. Qed.
Lemma gen_grid {A} e (dir : A -> nat -> rvec -> rvec) next step n : forall i a o s o' s' r,
  gen e dir next step n i a (o, s) = ((o', s'), r) -> grid_of s' = grid_of s /\ cfg o o'.
Proof.
  induction n as [|n IH]; intros i a o s o' s' r H; [cbn in H; injection H as <- <- <-; split; [reflexivity|apply cfg_refl]|].
  cbn [gen] in H. unfold bind in H. destruct (eval_step e (o, s)) as [[o1 s1] [gr|x]] eqn:E1; apply eval_step_frame in E1 as [C1 S1]; apply struct_grid in S1.
  2: { injection H as <- <- <-. auto. }
  destruct (update_rho (dir a i gr) step (o1, s1)) as [[o2 s2] [[]|x]] eqn:E2; apply update_rho_spec in E2.
  - destruct E2 as [(_ & rho & _ & E2)|([x Hx] & _)]; [|discriminate]. injection E2 as -> ->.
    destruct (IH _ _ _ _ _ _ _ H) as [G C]. split; [rewrite G, <- S1; reflexivity|]. eapply cfg_trans; [exact C1|]. eapply cfg_trans; [|exact C]. repeat split.
  - destruct E2 as [(E & _)|(_ & E2)]; [discriminate|]. injection E2 as -> ->. injection H as <- <- <-. auto.
Qed.
Lemma run_grid e m n step b1 b2 o s o' s' r : m = MGD \/ m = MADAM -> run e m n step b1 b2 (o, s) = ((o', s'), r) -> grid_of s' = grid_of s /\ cfg o o'.
Proof.
  intros Hm H. unfold run in H. cbn [snd fst] in H. destruct (s_rho s); [injection H as <- <- <-; split; [reflexivity|apply cfg_refl]..|].
  destruct Hm as [-> | ->]; [rewrite (gen_GD e step n 0) in H|rewrite gen_ADAM in H]; apply gen_grid in H as [G C];
    (split; [exact G|eapply cfg_trans; [|exact C]; repeat split]).
Qed.
Lemma fam_run_nonsingular Nx Ny px py eps s0 o src rho : fam_sim "Ez" Nx Ny px py eps = Ok s0 -> 2 <= Nx -> 2 <= Ny ->
  o_W o = rId -> (0 < o_beta o)%R -> (0 <= o_eta o <= 1)%R -> (1 <= o_eps_m o)%R -> (forall k, k < Nx * Ny -> (0 <= rho k <= 1)%R) ->
  let s := with_density o (upd_src (mkNd Nx Ny src) s0) rho in
  forall e m n step b1 b2 o' s' r, m = MGD \/ m = MADAM -> run e m n step b1 b2 (o, s) = ((o', s'), r) -> nonsingular (s_M s') (s_A s').
Proof.
  intros H0 HNx HNy HW Hb He Hem Hr s e m n step b1 b2 o' s' r Hm H.
  assert (HE: forall k, k < Nx * Ny -> (1 / 2 < rho2eps (Nx * Ny) rho (o_eps_m o) (o_W o) (o_eta o) (o_beta o) k)%R).
  { intros k Hk. rewrite HW. apply fam_eps_ge1; auto. }
  destruct (fam_facts Nx Ny px py eps s0 o src rho H0 HNx HNy HE) as (F1 & F2 & F3 & F4 & F5 & F6 & F7 & F8). fold s in F1, F2, F3, F4, F5, F6, F7, F8.
  assert (HV: valid_design o s).
  { exists rho. split; [exact F5|]. intros k Hk. split; [apply Hr; rewrite <- F7; exact Hk|apply F6, Hk]. }
  destruct (C41_density_and_permittivity_stay_valid _ _ _ _ _ _ _ _ _ _ _ Hm H) as [HI _]. destruct (HI HV) as [(rho' & Hr' & V) HC]. specialize (HC F2).
  destruct (run_grid _ _ _ _ _ _ _ _ _ _ _ Hm H) as [G (_ & _ & C3 & C4 & C5 & C6 & _)].
  unfold grid_of in G. injection G as G1 G2 G3 G4 G5 G6 G7 G8.
  destruct (Simulation_fields _ _ _ _ _ _ _ H0) as (E1 & E2 & E3 & E4 & E5 & E6 & E7 & E8 & P1 & P2 & E9 & EP & _ & _).
  cbn [nd_nx nd_ny] in *. assert (EM: s_M s' = Nx * Ny) by (rewrite <- F7; unfold s_M; rewrite G3, G4; reflexivity).
  destruct (consistent_A s' HC) as [EA _]. rewrite EA, EM, G1, G2, G3, G4, G5, G6. replace (s_pol s') with PolEz by (rewrite G8; symmetry; exact F1). unfold s_epsC.
  change (s_omega s) with (s_omega s0). change (s_xrange s) with (s_xrange s0). change (s_yrange s) with (s_yrange s0).
  change (s_Nx s) with (s_Nx s0). change (s_Ny s) with (s_Ny s0). change (s_L0 s) with (s_L0 s0). rewrite E1, E2, E3, E4, E6, E7.
  assert (0 < INR Nx)%R by (apply lt_0_INR; lia). assert (0 < INR Ny)%R by (apply lt_0_INR; lia).
  apply Ez_nonsingular_pml with (d := 1%R); try (cbn [fst snd]; lra || lia).
  - apply dL_new; lia.
  - intros k Hk. destruct (V k) as [Vr Ve]; [rewrite EM; exact Hk|]. rewrite Ve, C3, C4, C5, C6, EM, HW.
    assert (Q: (1 / 2 < rho2eps (Nx * Ny) rho' (o_eps_m o) rId (o_eta o) (o_beta o) k)%R) by (apply fam_eps_ge1; auto).
    replace (ex_omega ^ 2 * (EPSILON_0 * 1) * (MU_0 * 1) * (1 * 1))%R with (ex_omega ^ 2 * (EPSILON_0 * MU_0))%R by ring.
    rewrite ex_omega_sq. lra.
Qed.
(** 5 x 5 pixels, layers of one pixel, sources at (1,2) and (2,1), design pixels (2,3), (3,2) and (3,3) *)
Definition diag_src : vec := fun k => if Nat.eqb k 7 then RtoC 1 else if Nat.eqb k 11 then RtoC 1 else RtoC 0.
Definition diag_design : rvec := fun k => if Nat.eqb k 13 then 1%R else if Nat.eqb k 17 then 1%R else if Nat.eqb k 18 then 1%R else 0%R.
Definition diag_rho : rvec := fun k => if Nat.eqb k 13 then (1 / 2)%R else if Nat.eqb k 17 then (1 / 2)%R else if Nat.eqb k 18 then (1 / 4)%R else 0%R.
Ltac five k Hk := do 25 (destruct k as [|k]; [try reflexivity|]); [..|exfalso; clear -Hk; lia].
Lemma exchange_involution n : 0 < n -> forall k, k < n * n -> exchange n k < n * n.
Proof. intros Hn k Hk. apply flat_lt; [apply Nat.mod_upper_bound; lia|apply (flat_div_lt n n k Hk)]. Qed.
Example C93_met :
  exists s0 ob o, fam_sim "Ez" 5 5 1 1 (fun _ => 1%R) = Ok s0 /\ Objective (intensity 25 1) [Ez_lin] = Ok ob /\
  Optimization ob s0 diag_design 5 None (1 / 2) 10 "linear" "hybrid" None = Ok o /\
  let s := with_density o (upd_src (mkNd 5 5 diag_src) s0) diag_rho in let f := exchange 5 in
  lin_ready (intensity 25 1) [Ez_lin] o s /\ consistent s /\ physical s /\ symmetry_of_grid s f /\
  symmetric_objective (s_M s) f (intensity 25 1) /\ symmetric_settings (s_M s) f o /\ symmetric_state f s /\
  forall m n step b1 b2, m = MGD \/ m = MADAM ->
    (forall k o1 s1, k < n -> run ex_env m k step b1 b2 (o, s) = ((o1, s1), Ok tt) -> nonsingular (s_M s1) (s_A s1)) /\
    exists o' s', run ex_env m n step b1 b2 (o, s) = ((o', s'), Ok tt).
Proof.
  destruct (fam_sim_ok "Ez" 5 5 1 1 (fun _ => 1%R) (or_introl eq_refl)) as [s0 H0].
  exists s0. eexists. eexists. split; [exact H0|]. split; [reflexivity|]. split; [reflexivity|].
  match goal with |- context [with_density ?o _ _] => set (oo := o) end. intros s f.
  assert (HR: forall k, (0 <= diag_rho k <= 1)%R).
  { intro k. unfold diag_rho. destruct (Nat.eqb k 13); [lra|]. destruct (Nat.eqb k 17); [lra|]. destruct (Nat.eqb k 18); lra. }
  destruct (fam_facts 5 5 1 1 (fun _ => 1%R) s0 oo diag_src diag_rho H0 ltac:(lia) ltac:(lia)) as (F1 & F2 & F3 & F4 & F5 & F6 & F7 & F8).
  { intros k Hk. apply fam_eps_ge1; try (cbn; lra); [exact Hk|apply HR]. }
  fold s in F1, F2, F3, F4, F5, F6, F7, F8. change (5 * 5) with 25 in F7.
  assert (HL: lin_ready (intensity 25 1) [Ez_lin] oo s).
  { split; [exact F1|]. split; [exact F3|]. split; [exists diag_rho; exact F5|]. split; [reflexivity|]. split; [|split; reflexivity].
    constructor; [|constructor]. split; [split; [reflexivity|left; reflexivity]|reflexivity]. }
  assert (HRen: renumber 25 25 f f) by apply (renumber_swap 5 5).
  destruct (Simulation_fields _ _ _ _ _ _ _ H0) as (E1 & E2 & E3 & E4 & E5 & E6 & E7 & E8 & P1 & P2 & E9 & EP & _ & _).
  cbn [nd_nx nd_ny] in *. specialize (E9 _ _ eq_refl).
  assert (IR: invariant 25 f diag_rho) by (intros k Hk; five k Hk).
  split; [exact HL|]. split; [exact F2|]. split; [exact F8|]. split.
  { right; right; left. change (s_Nx s) with (s_Nx s0). change (s_Ny s) with (s_Ny s0). change (s_NPML s) with (s_NPML s0).
    change (s_xrange s) with (s_xrange s0). change (s_yrange s) with (s_yrange s0). rewrite E3, E4, E6, E7, E9. repeat split. }
  rewrite F7. split.
  { intros Fs HF i k Hk. cbn [intensity pf_grad]. do 2 f_equal. destruct (Nat.lt_ge_cases i (List.length Fs)) as [Hi|Hi].
    - apply (HF (nth i Fs vzero)); [apply nth_In; exact Hi|exact Hk].
    - rewrite nth_overflow by exact Hi. reflexivity. }
  split; [split; [intros k Hk; five k Hk|exact (C93_no_filter_symmetric 25 f f HRen)]|]. split.
  { unfold symmetric_state. rewrite F7. split; [intros k Hk; five k Hk|]. split.
    - assert (HE: forall k, k < 25 -> nd_buf (s_eps s) k = rho2eps 25 diag_rho 5 rId (1 / 2) 10 k).
      { intros k Hk. rewrite (F6 k) by (rewrite F7; exact Hk). rewrite F7. reflexivity. }
      intros k Hk. rewrite !HE by (try apply HRen; exact Hk).
      exact (sym_eps 25 f f HRen rId diag_rho 5 (1 / 2) 10 (C93_no_filter_symmetric 25 f f HRen) IR k Hk).
    - exists diag_rho. split; [exact F5|exact IR]. }
  intros m n step b1 b2 Hm. split.
  - intros k o1 s1 _ H. apply (fam_run_nonsingular 5 5 1 1 (fun _ => 1%R) s0 oo diag_src diag_rho H0 ltac:(lia) ltac:(lia) eq_refl ltac:(cbn; lra) ltac:(cbn; lra) ltac:(cbn; lra) (fun k _ => HR k) _ _ _ _ _ _ _ _ _ Hm H).
  - destruct (run_succeeds ex_env m n step b1 b2 _ _ _ _ Hm HL) as (o' & s' & H & _). eauto.
Qed.

(** * A mirror line that runs across an absorbing layer is not a symmetry of the solver.
    The layer of the code has one pixel more at the low end than at the high end (pml.py 29-38:
    i <= Nw_pml against i > Nw - Nw_pml, with i from 0), so the reflection is lost: on the 2 x 2 grid with one layer along x and an
    objective that is mirror symmetric, one step of gradient descent breaks the symmetry. *)

(* ------------------------------------------------------------------ *)
(** ** Reflections across the layers *)
(** 2 x 2 pixels with a layer of one pixel in x, uniform permittivity and source, J = Re(c sum Ez) *)
Definition pm_opt (c : C) : opt := mkOpt (set_J (linear_obj 4 (fun _ => c)) up_args) up_design rId (1 / 2) 10 5 "linear" "hybrid" None [] [] false None.
Definition pm_sim (s0 : sim) (c : C) : sim := with_density (pm_opt c) (upd_src (mkNd 2 2 (fun _ => RtoC 1)) s0) up_rho.
Lemma pm_sfac_neq omega r L0 : (0 < omega)%R -> (0 < L0)%R -> (fst r < snd r)%R ->
  create_sfactor r L0 Fwd omega 2 1 0 <> create_sfactor r L0 Fwd omega 2 1 1.
Proof.
  intros Ho HL Hr E. assert (E0 := EPSILON_0_pos). unfold create_sfactor in E. cbn [Nat.ltb Nat.leb] in E. cbv zeta in E. unfold Sfac in E.
  assert (Hh: (0 < (snd r - fst r) / INR 2)%R) by (apply Rdiv_lt_0_compat; [lra|simpl; lra]). set (h := ((snd r - fst r) / INR 2)%R) in *.
  assert (Hw: (0 < omega * EPSILON_0 * L0)%R) by (apply Rmult_lt_0_compat; [apply Rmult_lt_0_compat|]; assumption). set (w := (omega * EPSILON_0 * L0)%R) in *.
  assert (HN: RtoC w <> RtoC 0) by (apply RtoC_neq0; lra).
  assert (E2: RtoC (sig_w (h * (INR 1 - INR 0 + 0.5)) (INR 1 * h)) = RtoC (sig_w (h * (INR 1 - INR 1 + 0.5)) (INR 1 * h))).
  { apply (f_equal (fun z => ((RtoC 1 - z) * RtoC w * - Ci)%C)) in E. 
    assert (EQ: forall x, ((RtoC 1 - (RtoC 1 - Ci * RtoC x / RtoC w)) * RtoC w * - Ci)%C = RtoC x).
    { intro x. transitivity (RtoC x * - (Ci * Ci))%C; [field; exact HN|]. rewrite Ci_sqr. ring. }
    rewrite !EQ in E. exact E. }
  apply RtoC_inj in E2. unfold sig_w in E2. cbv zeta in E2. 
  assert (H1: (INR 1 = 1)%R) by reflexivity. assert (H2: (INR 0 = 0)%R) by reflexivity. rewrite H1, H2 in E2.
  assert (HT := ETA_0_pos).
  assert (Hs: ((- (4 + 1) * -12 / (2 * ETA_0 * (1 * h)))%R <> 0)%R) by (apply Rgt_not_eq, Rdiv_lt_0_compat; [lra|apply Rmult_lt_0_compat; lra]).
  apply Rmult_eq_reg_l in E2; [|exact Hs].
  replace (h * (1 - 0 + 0.5) / (1 * h))%R with (3 / 2)%R in E2 by (rewrite Rmult_1_l; unfold Rdiv; rewrite (Rmult_comm h), Rmult_assoc, Rinv_r by lra; lra).
  replace (h * (1 - 1 + 0.5) / (1 * h))%R with (1 / 2)%R in E2 by (rewrite Rmult_1_l; unfold Rdiv; rewrite (Rmult_comm h), Rmult_assoc, Rinv_r by lra; lra). cbn in E2. lra.
Qed.
Lemma pm_rows s0 : fam_sim "Ez" 2 2 1 0 (fun _ => 1%R) = Ok s0 ->
  let s := pm_sim s0 (RtoC 1) in exists (K : R) (Q : C), (0 < K)%R /\ Q <> RtoC 0 /\
  exists f0 f1 : C, f0 <> f1 /\
  (forall z k, k < 4 -> mv 4 (s_A s) (fun _ => z) k = (RtoC K * z)%C) /\
  (forall k, k < 4 -> mv 4 (s_A s) (fun k => if Nat.ltb k 2 then RtoC 1 else (- RtoC 1)%C) k =
     if Nat.ltb k 2 then (RtoC K - f0 * Q)%C else (f1 * Q - RtoC K)%C).
Proof.
  intros H0 s. assert (HO := ex_omega_pos). assert (PE := EPSILON_0_pos). assert (PM := MU_0_pos).
  destruct (Simulation_fields _ _ _ _ _ _ _ H0) as (E1 & E2 & E3 & E4 & E5 & E6 & E7 & E8 & P1 & P2 & E9 & EP & _ & _).
  specialize (E9 _ _ eq_refl). specialize (EP eq_refl). cbn [nd_nx nd_ny] in *. rewrite !Nat2Z.id in E9.
  assert (EA: s_A s = fst (construct_A ex_omega (0, INR 2 * 1)%R (0, INR 2 * 1)%R 2 2 (cvec (rho2eps 4 up_rho 5 rId (1 / 2) 10)) (1, 0) PolEz 1 true)).
  { destruct (consistent_A s (set_eps_consistent _ _)) as [EA _]. rewrite EA. unfold s_epsC.
    change (s_omega s) with (s_omega s0). change (s_xrange s) with (s_xrange s0). change (s_yrange s) with (s_yrange s0).
    change (s_Nx s) with (s_Nx s0). change (s_Ny s) with (s_Ny s0). change (s_NPML s) with (s_NPML s0). change (s_pol s) with (s_pol s0). change (s_L0 s) with (s_L0 s0).
    assert (EN: nd_buf (s_eps s) = rho2eps 4 up_rho 5 rId (1 / 2) 10).
    { change (nd_buf (s_eps s)) with (rho2eps (s_M s0) up_rho 5 rId (1 / 2) 10). unfold s_M. rewrite E3, E4. reflexivity. }
    rewrite EN, E1, E2, E3, E4, E6, E7, E9, EP. reflexivity. }
  assert (HE: (1 / 2 < up_eps 0)%R).
  { rewrite <- (up_eps_at 0 0 ltac:(lia)). change 4 with (2 * 2). apply (fam_eps_ge1 (2 * 2) (rho_dir up_rho (fun _ => 1%R) 0) 5 (1 / 2) 10 0); try lra; [lia|]. unfold rho_dir, up_rho. lra. }
  assert (HEk: forall k, k < 4 -> rho2eps 4 up_rho 5 rId (1 / 2) 10 k = up_eps 0).
  { intros k Hk. rewrite <- (up_eps_at 0 k Hk). f_equal. apply functional_extensionality. intro q. unfold rho_dir. ring. }
  set (xr := (0, INR 2 * 1)%R) in *.
  assert (Hxr: (fst xr < snd xr)%R) by (unfold xr; cbn [fst snd INR]; lra).
  set (Kr := (ex_omega ^ 2 * EPSILON_0 * up_eps 0)%R). set (K := RtoC Kr).
  set (f0 := (/ create_sfactor xr 1 Fwd ex_omega 2 1 0)%C). set (f1 := (/ create_sfactor xr 1 Fwd ex_omega 2 1 1)%C).
  set (b0 := (/ create_sfactor xr 1 Bwd ex_omega 2 1 0)%C). set (b1 := (/ create_sfactor xr 1 Bwd ex_omega 2 1 1)%C).
  set (al := RtoC (1 / (MU_0 * 1))). set (Q := (al * RtoC 2 * (b0 + b1))%C).
  exists Kr, Q. split.
  { apply Rmult_lt_0_compat; [apply Rmult_lt_0_compat|]; try lra. apply pow_lt; lra. }
  split.
  { unfold Q. assert (HQ: (b0 + b1)%C <> RtoC 0).
    { assert (PR: forall i, (0 < Re (/ create_sfactor xr 1 Bwd ex_omega 2 1 i)%C)%R).
      { intro i. destruct (sfactor_shape xr 1 Bwd ex_omega 2 1 i) as [R1 _]; try lra; try lia; try exact Hxr.
        destruct (create_sfactor xr 1 Bwd ex_omega 2 1 i) as [a b]. cbn [fst] in R1. unfold Cinv. cbn [fst]. unfold Re in *. cbn [fst snd] in *. subst a.
        apply Rdiv_lt_0_compat; [lra|]. assert (0 <= b ^ 2)%R by apply pow2_ge_0. lra. }
      intro E. apply (f_equal Re) in E. autorewrite with reim in E. assert (H1 := PR 0). assert (H2 := PR 1). fold b0 in H1. fold b1 in H2. lra. }
    apply Cmult_neq_0; [apply Cmult_neq_0|exact HQ]; apply RtoC_neq0; [|lra]. apply Rgt_not_eq, Rdiv_lt_0_compat; lra. }
  fold K. exists f0, f1. split.
  { intro E. apply (pm_sfac_neq ex_omega xr 1 HO ltac:(lra) Hxr). unfold f0, f1 in E.
    assert (N0: create_sfactor xr 1 Fwd ex_omega 2 1 0 <> RtoC 0) by (apply sfactor_neq0; lra || lia || exact Hxr).
    assert (N1: create_sfactor xr 1 Fwd ex_omega 2 1 1 <> RtoC 0) by (apply sfactor_neq0; lra || lia || exact Hxr).
    set (x := create_sfactor _ _ _ _ _ _ 0) in *. set (y := create_sfactor _ _ _ _ _ _ 1) in *.
    transitivity (x * (/ y * y))%C; [field; exact N1|]. rewrite <- E. field. exact N0. }
  assert (HA: forall x i j, i < 2 -> j < 2 -> mv 4 (s_A s) x (pix 2 i j) =
    (pax Fwd ex_omega 1 xr 1 2 1 (fun c => al * pax Bwd ex_omega 1 xr 1 2 1 (fun c' => x (pix 2 c' j)) c) i
     + pax Fwd ex_omega 1 xr 1 2 0 (fun c => al * pax Bwd ex_omega 1 xr 1 2 0 (fun c' => x (pix 2 i c')) c) j + K * x (pix 2 i j))%C).
  { intros x i j Hi Hj. rewrite EA. change 4 with (2 * 2) at 1.
    assert (Hd: dL 2 2 xr xr = (1, 1)%R) by (unfold xr; apply dL_new; lia).
    assert (Hdx: fst (dL 2 2 xr xr) <> 0%R) by (rewrite Hd; cbn; lra). assert (Hdy: snd (dL 2 2 xr xr) <> 0%R) by (rewrite Hd; cbn; lra).
    rewrite A_grid by assumption. rewrite Hd. cbn [fst snd].
    f_equal. unfold Ad_g, cvec. rewrite HEk by (apply (flat_lt 2 2); assumption). unfold K, Kr. f_equal. rewrite <- !RtoC_mult. f_equal. ring. }
  assert (HP: forall k, k < 4 -> exists i j, i < 2 /\ j < 2 /\ k = pix 2 i j).
  { intros k Hk. exists (k / 2), (k mod 2). split; [apply (flat_div_lt 2 2 k Hk)|]. split; [apply (flat_mod_lt 2 2 k Hk)|]. symmetry. apply flat_eta. lia. }
  assert (D1: RtoC 1 <> RtoC 0) by (apply RtoC_neq0; lra).
  split.
  - intros z k Hk. destruct (HP k Hk) as (i & j & Hi & Hj & ->). rewrite HA by assumption. unfold pax, ax. cbn [Nat.ltb Nat.leb].
    set (q1 := (/ create_sfactor xr 1 Fwd ex_omega 2 1 i)%C). set (q2 := (/ create_sfactor xr 1 Fwd ex_omega 2 0 j)%C).
    set (q3 := (/ create_sfactor xr 1 Bwd ex_omega 2 1 (next 2 i))%C). set (q4 := (/ create_sfactor xr 1 Bwd ex_omega 2 1 i)%C).
    set (q5 := (/ create_sfactor xr 1 Bwd ex_omega 2 0 (next 2 j))%C). set (q6 := (/ create_sfactor xr 1 Bwd ex_omega 2 0 j)%C). field. exact D1.
  - intros k Hk. destruct (HP k Hk) as (i & j & Hi & Hj & ->). rewrite HA by assumption.
    rewrite !pax_no_pml.
    assert (EY: ax Fwd 1 2 (fun c : nat => (al * pax Bwd ex_omega 1 xr 1 2 0 (fun c' : nat => if Nat.ltb (pix 2 i c') 2 then RtoC 1 else (- RtoC 1)%C) c)%C) j = RtoC 0).
    { unfold ax at 1. change (Nat.ltb 1 2) with true. cbv iota. rewrite !pax_no_pml. unfold ax. change (Nat.ltb 1 2) with true. cbv iota.
      assert (EL: forall c, c < 2 -> Nat.ltb (pix 2 i c) 2 = Nat.eqb i 0).
      { intros c Hc. unfold pix. destruct (Nat.eqb_spec i 0) as [->|]; [apply Nat.ltb_lt; lia|apply Nat.ltb_ge; lia]. }
      rewrite !EL by (try apply prev_lt; try apply next_lt; assumption). field. exact D1. }
    rewrite EY. clear EY.
    assert (Hi': i = 0 \/ i = 1) by lia. assert (Hj': j = 0 \/ j = 1) by lia. unfold pax, ax.
    destruct Hi' as [-> | ->]; destruct Hj' as [-> | ->]; cbn [Nat.ltb Nat.leb next prev Nat.eqb pix Nat.mul Nat.add Nat.sub]; fold f0 f1 b0 b1; unfold Q; replace (RtoC 2) with (RtoC 1 + RtoC 1)%C by (rewrite <- RtoC_plus; f_equal; lra); field; exact D1.
Qed.
(** one gradient step keeps the reflection only if the gradient has it *)
Lemma pm_step s0 c : runs_keep_symmetry (fun s f => f = refl_x (s_Nx s) (s_Ny s)) -> fam_sim "Ez" 2 2 1 0 (fun _ => 1%R) = Ok s0 ->
  let s := pm_sim s0 c in
  exists aj, solves 4 (mT (s_A s)) aj (vneg (fun _ => c)) /\
    forall k, k < 2 -> Re (Ci * aj k)%C = Re (Ci * aj (k + 2)%nat)%C.
Proof.
  intros HK H0 s. destruct (pm_rows s0 H0) as (K & Q & PK & NQ & f0 & f1 & Nf & R1 & _). change (s_A (pm_sim s0 (RtoC 1))) with (s_A s) in R1.
  assert (HO := ex_omega_pos). assert (PE := EPSILON_0_pos).
  destruct (Simulation_fields _ _ _ _ _ _ _ H0) as (E1 & E2 & E3 & E4 & E5 & E6 & E7 & E8 & P1 & P2 & E9 & EP & _ & _).
  cbn [nd_nx nd_ny] in *.
  assert (HR: forall k, (0 <= up_rho k <= 1)%R) by (intro k; unfold up_rho; lra).
  destruct (fam_facts 2 2 1 0 (fun _ => 1%R) s0 (pm_opt c) (fun _ => RtoC 1) up_rho H0 ltac:(lia) ltac:(lia)) as (F1 & F2 & F3 & F4 & F5 & F6 & F7 & F8).
  { intros k Hk. apply fam_eps_ge1; try (cbn; lra); [exact Hk|apply HR]. }
  change (with_density (pm_opt c) (upd_src (mkNd 2 2 (fun _ => RtoC 1)) s0) up_rho) with s in *. change (2 * 2) with 4 in F7.
  assert (HA: List.Forall lin_Ez_arg up_args) by (constructor; [apply (new_arg_Ez "Ez"); [auto|reflexivity]|constructor]).
  assert (HL: lin_ready (linear_obj 4 (fun _ => c)) up_args (pm_opt c) s).
  { split; [exact F1|]. split; [exact F3|]. split; [exists up_rho; exact F5|]. split; [reflexivity|]. split; [exact HA|split; reflexivity]. }
  rewrite F7 in F4.
  (* the field *)
  assert (NK: RtoC K <> RtoC 0) by (apply RtoC_neq0; lra). set (e0 := (Ci * RtoC ex_omega / RtoC K)%C).
  assert (NO: RtoC ex_omega <> RtoC 0) by (apply RtoC_neq0; lra).
  assert (HX: forall k, k < 4 -> lin_solution ex_env s k = e0).
  { assert (HS := lin_solution_solves ex_env s ex_env_exact). rewrite F7 in HS. specialize (HS F4).
    apply (solves_unique 4 (s_A s) _ (fun _ => e0) (rhs s) F4 HS). apply solves_mv. intros k Hk. rewrite R1 by exact Hk.
    change (rhs s k) with (RtoC 1 * Ci * RtoC (s_omega s0))%C. rewrite E1. unfold e0. field. exact NK. }
  (* the adjoint field *)
  destruct (solver_direct_default_ok ex_env 4 (mT (s_A s)) (vneg (fun _ => c))) as [aj Haj].
  assert (Saj := solver_direct_correct _ _ _ _ _ _ ex_env_exact (nonsingular_mT _ _ F4) Haj).
  (* the gradient *)
  assert (HD: compute_dJ ex_env (pm_opt c, s) = ((upd_arglist [lin_solution ex_env s] (pm_opt c), solved ex_env s),
     Ok (fun k => 0 + Re (sensitivity 4 (pm_opt c) up_rho (lin_solution ex_env s) (dAdeps_lin (pm_opt c) s) aj k))%R)).
  { unfold compute_dJ. rewrite (solve_lin_args ex_env (pm_opt c) s (linear_obj 4 (fun _ => c)) up_args eq_refl eq_refl F1 F3 HA).
    cbn [o_objective upd_arglist pm_opt set_J ob_grads ob_dJ ob_args up_args List.map List.combine linear_obj pf_arity List.seq oa_gradient oa_nl grad_loop run_grad].
    change (s_pol (solved ex_env s)) with (s_pol s). rewrite F1. cbn [pol_comp].
    replace (s_fields (solved ex_env s) Ez) with (Some (lin_solution ex_env s)) by (unfold solved; cbv zeta; cbn [upd_fields s_fields]; rewrite F1; reflexivity).
    unfold g_linear_Ez, pf_dcall. cbn [pf_arity pf_grad List.length stored_args o_arglist upd_arglist Nat.eqb rbind List.map]. unfold finish_linear_Ez, adjoint_linear_Ez.
    change (s_M (solved ex_env s)) with (s_M s). rewrite F7. change (s_A (solved ex_env s)) with (s_A s). cbn [linear_obj pf_arity pf_grad rbind]. rewrite Haj. cbn [rbind].
    unfold get_rho. change (s_rho (solved ex_env s)) with (s_rho s). rewrite F5. reflexivity. }
  set (g := fun k => (0 + Re _)%R) in HD.
  set (Kr := ((5 - 1) * drhob_drhot (1 / 2) (1 / 2) 10 * (1 * ex_omega ^ 2 * (EPSILON_0 * 1)))%R).
  assert (HPk: (0 < Kr)%R).
  { unfold Kr. apply Rmult_lt_0_compat; [apply Rmult_lt_0_compat; [lra|]|].
    - unfold drhob_drhot. replace (10 * (1 / 2 - 1 / 2))%R with 0%R by lra. rewrite PTanh.tanh_0'. apply Rdiv_lt_0_compat; [lra|]. apply proj_den; lra.
    - apply Rmult_lt_0_compat; [|lra]. rewrite Rmult_1_l. apply pow_lt; lra. }
  assert (Hg: forall k, k < 4 -> g k = Re (RtoC Kr * e0 * aj k)%C).
  { intros k Hk. unfold g. rewrite Rplus_0_l. f_equal. unfold sensitivity. rewrite (csum_single 4 k); [|exact Hk|].
    - rewrite HX by exact Hk. unfold rho2rhot. rewrite (rmv_id 4 up_rho k Hk : rmv 4 (o_W (pm_opt c)) up_rho k = up_rho k).
      cbn [pm_opt o_W o_eta o_beta o_eps_m]. unfold rId at 1. rewrite Nat.eqb_refl. unfold dAdeps_lin. cbn [pm_opt o_design]. unfold up_design, up_rho.
      change (s_omega s) with (s_omega s0). change (s_L0 s) with (s_L0 s0). rewrite E1, E2. unfold Kr. rewrite !RtoC_mult. ring.
    - intros j Hj Hne. cbn [pm_opt o_W]. unfold rId at 1. destruct (Nat.eqb_spec k j); [congruence|]. ring. }
  exists aj. split; [exact Saj|].
  (* one step *)
  set (B := (1 + Rabs (g 0%nat) + Rabs (g 1%nat) + Rabs (g 2%nat) + Rabs (g 3%nat))%R).
  assert (HB: (0 < B)%R) by (unfold B; assert (H1 := Rabs_pos (g 0%nat)); assert (H2 := Rabs_pos (g 1%nat)); assert (H3 := Rabs_pos (g 2%nat)); assert (H4 := Rabs_pos (g 3%nat)); lra).
  destruct (first_iteration ex_env MGD 0 0 (pm_opt c) s up_rho _ _ g _ (or_introl eq_refl) eq_refl eq_refl F1 F3 HA eq_refl eq_refl F5 HD F5 (1 / (2 * B))%R) as (o1 & _ & _ & Hrun).
  cbn [snd] in Hrun. set (s1 := with_density _ _ _) in Hrun.
  assert (HF: forall k, k < 4 -> refl_x 2 2 k = (k + 2) mod 4) by (intros k Hk; do 4 (destruct k as [|k]; [reflexivity|]); lia).
  assert (IC: forall T (v : nat -> T), (forall a b, a < 4 -> b < 4 -> v a = v b) -> invariant 4 (refl_x 2 2) v).
  { intros T v Hv k Hk. apply Hv; [|exact Hk]. rewrite HF by exact Hk. apply Nat.mod_upper_bound. lia. }
  assert (HRen: renumber 4 4 (refl_x 2 2) (refl_x 2 2)) by (apply (renumber_mx 2 2); lia).
  destruct (HK ex_env MGD 1 (1 / (2 * B))%R 0%R 0%R (linear_obj 4 (fun _ => c)) up_args (refl_x 2 2) (pm_opt c) s o1 s1) with (3 := HL) (12 := Hrun) as (rho' & Hr1 & Hr2 & _); try assumption.
  - left; reflexivity.
  - exact ex_env_exact.
  - intros a [<-|[]]. reflexivity.
  - change (s_Nx s) with (s_Nx s0). change (s_Ny s) with (s_Ny s0). rewrite E3, E4. reflexivity.
  - intros Fs _ i k Hk. reflexivity.
  - rewrite F7. split; [apply IC; reflexivity|exact (C93_no_filter_symmetric 4 _ _ HRen)].
  - unfold symmetric_state. rewrite F7. split; [apply IC; reflexivity|]. split; [|exists up_rho; split; [exact F5|apply IC; reflexivity]].
    apply IC. intros a b Ha Hb. rewrite !(F6 : forall k, _) by (rewrite F7; assumption). rewrite F7. unfold rho2eps, rho2rhot. cbn [pm_opt o_W].
    rewrite !(rmv_id 4) by assumption. reflexivity.
  - intros k o2 s2 _ H. exact (fam_run_nonsingular 2 2 1 0 (fun _ => 1%R) s0 (pm_opt c) (fun _ => RtoC 1) up_rho H0 ltac:(lia) ltac:(lia) eq_refl ltac:(cbn; lra) ltac:(cbn; lra) ltac:(cbn; lra) (fun k _ => HR k) _ _ _ _ _ _ _ _ _ (or_introl eq_refl) H).
  - rewrite F7 in Hr2. intros k Hk.
    assert (Er: forall q, q < 4 -> rho' q = (1 / 2 + 1 / (2 * B) * g q)%R).
    { intros q Hq. change (s_rho s1) with (Val (fun q => clip01 (up_rho q + o_design (pm_opt c) q * (1 / (2 * B)) * step_vector MGD g q)%R)) in Hr1. injection Hr1 as <-.
      cbn [pm_opt o_design step_vector]. unfold up_design, up_rho. rewrite clip01_id; [ring|].
      assert (HQ: (Rabs (g q) <= B)%R).
      { unfold B. assert (H1 := Rabs_pos (g 0%nat)); assert (H2 := Rabs_pos (g 1%nat)); assert (H3 := Rabs_pos (g 2%nat)); assert (H4 := Rabs_pos (g 3%nat)).
        do 4 (destruct q as [|q]; [lra|]). lia. }
      assert (HQ2: (-1 / 2 <= 1 / (2 * B) * g q <= 1 / 2)%R).
      { apply Rabs_le_between in HQ. split; apply (Rmult_le_reg_l (2 * B)); try lra.
        - replace (2 * B * (1 / (2 * B) * g q))%R with (g q) by (field; lra). lra.
        - replace (2 * B * (1 / (2 * B) * g q))%R with (g q) by (field; lra). lra. }
      lra. }
    assert (E := Hr2 k ltac:(lia)). rewrite HF in E by lia. rewrite Nat.mod_small in E by lia. rewrite !Er in E by lia.
    assert (Eg: g k = g (k + 2)) by (apply (Rmult_eq_reg_l (1 / (2 * B))); [lra|]; apply Rgt_not_eq, Rdiv_lt_0_compat; lra).
    rewrite !Hg in Eg by lia.
    assert (EZ: forall z, Re (RtoC Kr * e0 * z)%C = (Kr * (ex_omega / K) * Re (Ci * z)%C)%R).
    { intro z. unfold e0. replace (RtoC Kr * (Ci * RtoC ex_omega / RtoC K) * z)%C with (RtoC (Kr * (ex_omega / K)) * (Ci * z))%C by (unfold Rdiv; rewrite !RtoC_mult, RtoC_inv by lra; unfold Cdiv; ring).
      autorewrite with reim. ring. }
    rewrite !EZ in Eg. apply Rmult_eq_reg_l in Eg; [exact Eg|]. apply Rgt_not_eq, Rmult_lt_0_compat; [exact HPk|]. apply Rdiv_lt_0_compat; lra.
Qed.
Theorem C93_mirror_across_pml_refuted : ~ runs_keep_symmetry (fun s f => f = refl_x (s_Nx s) (s_Ny s)).
Proof.
  intro HK. destruct (fam_sim_ok "Ez" 2 2 1 0 (fun _ => 1%R) (or_introl eq_refl)) as [s0 H0].
  destruct (pm_rows s0 H0) as (K & Q & PK & NQ & f0 & f1 & Nf & R1 & R2). cbv zeta in R1, R2.
  destruct (pm_step s0 (RtoC 1) HK H0) as (a & Sa & Ga).
  destruct (pm_step s0 Ci HK H0) as (b & Sb & Gb). cbv zeta in Sa, Sb.
  change (s_A (pm_sim s0 Ci)) with (s_A (pm_sim s0 (RtoC 1))) in Sb.
  assert (HN: nonsingular 4 (s_A (pm_sim s0 (RtoC 1)))).
  { destruct (fam_facts 2 2 1 0 (fun _ => 1%R) s0 (pm_opt (RtoC 1)) (fun _ => RtoC 1) up_rho H0 ltac:(lia) ltac:(lia)) as (_ & _ & _ & F4 & _ & _ & F7 & _).
    { intros k Hk. apply fam_eps_ge1; try (cbn; lra); [exact Hk|unfold up_rho; lra]. }
    cbv zeta in F4, F7. rewrite F7 in F4. exact F4. }
  set (A := s_A (pm_sim s0 (RtoC 1))) in *.
  assert (Hb: forall k, k < 4 -> b k = (Ci * a k)%C).
  { apply (solves_unique 4 (mT A) b (fun k => (Ci * a k)%C) (vneg (fun _ => Ci)) (nonsingular_mT _ _ HN) Sb).
    intros k Hk. change (mv 4 (mT A) (vscal Ci a) k = vneg (fun _ => Ci) k). rewrite mv_vscal. rewrite (Sa k Hk : mv 4 (mT A) a k = _). unfold vneg. ring. }
  assert (Ea: forall k, k < 2 -> a (k + 2) = a k).
  { intros k Hk. assert (G1 := Ga k Hk). assert (G2 := Gb k Hk). rewrite !Hb in G2 by lia. autorewrite with reim in G1, G2. apply C_ext; lra. }
  assert (HP: forall u, dot 4 a (mv 4 A u) = dot 4 (vneg (fun _ => RtoC 1)) u).
  { intros u. rewrite dot_mT. apply dot_ext; [|apply veq_refl]. intros k Hk. apply (Sa k Hk). }
  assert (P1 := HP (fun _ => RtoC 1)). assert (P2 := HP (fun k => if Nat.ltb k 2 then RtoC 1 else (- RtoC 1)%C)).
  unfold dot, csum, vneg in P1, P2. rewrite !R1 in P1 by lia. rewrite !R2 in P2 by lia.
  rewrite (Ea 0 ltac:(lia) : a 2 = a 0), (Ea 1 ltac:(lia) : a 3 = a 1) in P1, P2. cbn [Nat.ltb Nat.leb] in P2.
  set (S := (a 0 + a 1)%C).
  assert (Q2: (S * Q * (f1 - f0))%C = RtoC 0).
  { transitivity (RtoC 0 + a 0 * (RtoC K - f0 * Q) + a 1 * (RtoC K - f0 * Q) + a 0 * (f1 * Q - RtoC K) + a 1 * (f1 * Q - RtoC K))%C; [unfold S; ring|].
    etransitivity; [exact P2|ring]. }
  assert (NS: S <> RtoC 0).
  { intro E. assert (E2: (RtoC K * (S + S))%C = (- (RtoC 1 + RtoC 1 + RtoC 1 + RtoC 1))%C).
    { transitivity (RtoC 0 + a 0 * (RtoC K * RtoC 1) + a 1 * (RtoC K * RtoC 1) + a 0 * (RtoC K * RtoC 1) + a 1 * (RtoC K * RtoC 1))%C; [unfold S; ring|].
      etransitivity; [exact P1|ring]. }
    rewrite E in E2. apply (f_equal Re) in E2. autorewrite with reim in E2. cbn in E2. lra. }
  apply Nf. apply Cmult_integral in Q2 as [Q2|Q2].
  - apply Cmult_integral in Q2 as [Q2|Q2]; contradiction.
  - transitivity (f0 + (f1 - f0))%C; [rewrite Q2; ring|ring].
Qed.
