(** Theorems added after wrong programs had passed: add_nl, add_mode, the eps_r setter, the names
    of objective arguments, the gradient of LBFGS, the transverse problem of a mode, negative
    indices of a mode, the scale of a scan point. *)
From Coq Require Import Reals Lra Lia List ZArith Arith Bool String.
From Coquelicot Require Import Coquelicot.
From Verif Require Import Base Linear MCore MSim MFilter MOpt MMode Spec PCore PSim PEx PExOpt PMode PropsCore PropsSolve PropsLin PropsIter PropsOpt3 PropsFlux PropsMode PropsModes PropsScan PGrad PDiff POpt PropsGrad PropsOpt PropsOpt2 PropsFlat.
Import ListNotations.
Local Open Scope string_scope.

(* ------------------------------------------------------------------ *)
(** * C27: what add_nl accepts *)

(** add_nl raises AssertionError exactly for an unknown type or a scaled nonlinearity without
    eps_max, and then changes nothing; otherwise it appends one nonlinearity with the given data,
    chi in the units of the grid, and changes nothing else. *)
Theorem C27_add_nl :
  forall chi region ty scale emax s,
  let bad := ty <> "kerr" \/ scale = true /\ emax = None in
  (bad -> add_nl chi region ty scale emax s = (s, Raise AssertionError)) /\
  (~ bad -> exists q, add_nl chi region ty scale emax s = (upd_nl (s_nl s ++ [q]) s, Ok tt) /\
     nl_chi q = (chi / (s_L0 s) ^ 2)%R /\ nl_region q = region /\ nl_eps_scale q = scale /\
     (forall em, emax = Some em -> nl_eps_max q = em)).
Proof.
  intros chi region ty sc em s bad. unfold bad, add_nl, bind, getS, lift, putS, Nonlinearity.
  destruct (String.eqb_spec ty "kerr") as [->|NE].
  - destruct sc; [destruct em as [em|]|].
    + split; [intros [H|[_ H]]; [contradiction|discriminate]|]. intros _. eexists. split; [reflexivity|]. cbn. repeat split. intros ? H. injection H as <-. reflexivity.
    + split; [reflexivity|]. intro H. exfalso. apply H. right. auto.
    + split; [intros [H|[H _]]; [contradiction|discriminate]|]. intros _. eexists. split; [reflexivity|]. cbn. repeat split. intros ? ->. reflexivity.
  - split; [reflexivity|]. intro H. exfalso. apply H. left. exact NE.
Qed.

(* ------------------------------------------------------------------ *)
(** * C86: the order of the modes *)

Fixpoint add_modes (l : list mode) : St sim unit :=
  match l with [] => ret tt | m :: t => add_mode m ;;; add_modes t end.
(** simulations passed through when the sources of the modes are set up one after the other *)
Inductive set_up_one_by_one (e : env) : list mode -> sim -> sim -> Prop :=
| one_none : forall s, set_up_one_by_one e [] s s
| one_more : forall m l s s1 s2, setup_src e m s = (s1, Ok tt) -> set_up_one_by_one e l s1 s2 -> set_up_one_by_one e (m :: l) s s2.
Lemma add_modes_spec l : forall s, add_modes l s = (upd_modes (s_modes s ++ l) s, Ok tt).
Proof.
  induction l as [|m l IH]; intro s; cbn [add_modes].
  - unfold ret. rewrite app_nil_r. destruct s; reflexivity.
  - unfold bind, add_mode, modS. rewrite IH. cbn [upd_modes s_modes]. rewrite <- app_assoc. reflexivity.
Qed.
Lemma setup_list_chain e l : forall s s', setup_list e l s = (s', Ok tt) <-> set_up_one_by_one e l s s'.
Proof.
  induction l as [|m l IH]; intros s s'.
  - cbn [setup_list]. unfold ret. split; intro H; [injection H as <-; constructor|inversion H; reflexivity].
  - split.
    + intro H. apply setup_list_cons in H as (s1 & H1 & H2). econstructor; [exact H1|apply IH, H2].
    + intro H. inversion H as [|? ? ? s1 ? H1 H2]; subst. cbn [setup_list]. unfold bind. rewrite H1. apply IH, H2.
Qed.
(** Modes are kept and set up in the order in which they were added, after those the
    simulation had before; adding them changes nothing else. *)
Theorem C86_set_up_in_the_order_added :
  forall e l s, exists s1, add_modes l s = (s1, Ok tt) /\ s_modes s1 = (s_modes s ++ l)%list /\
    upd_modes (s_modes s) s1 = s /\
    forall s2, setup_modes e s1 = (s2, Ok tt) <-> set_up_one_by_one e (s_modes s ++ l) s1 s2.
Proof.
  intros e l s. exists (upd_modes (s_modes s ++ l) s). split; [apply add_modes_spec|]. split; [reflexivity|].
  split; [destruct s; reflexivity|]. intro s2. unfold setup_modes. cbn [upd_modes s_modes]. apply setup_list_chain.
Qed.

(* ------------------------------------------------------------------ *)
(** * C13: assigning the permittivity *)

(** everything that describes the problem except its structure *)
Definition rest_of_problem (s : sim) :=
  (s_L0 s, s_omega s, s_NPML s, s_pol s, s_dl s, s_src s, s_xrange s, s_yrange s, s_modes s, s_nl s, s_W_in s).
(** Assigning eps_r (also through init_design_region) replaces the permittivity, the matrix and
    the derivatives and discards the fields; source, modes, nonlinearities and parameters stay. *)
Theorem C13_assignment_keeps_the_rest :
  forall a s rnd design eps_m style,
  (s_eps (set_eps a s) = a /\ rest_of_problem (set_eps a s) = rest_of_problem s /\ s_rho (set_eps a s) = s_rho s /\
   s_eps_nl (set_eps a s) = s_eps_nl s /\ s_Anl (set_eps a s) = s_Anl s) /\
  rest_of_problem (init_design_region rnd design eps_m style s) = rest_of_problem s.
Proof.
  intros a s rnd design eps_m style. split; [repeat split|]. unfold init_design_region. cbv zeta.
  destruct (init_eps _ _ _ _ _); reflexivity.
Qed.

(* ------------------------------------------------------------------ *)
(** * C53: the names of the arguments *)

(** the field stored under a name of the python dictionary *)
Definition stored_field (s : sim) (name : string) (nl : bool) : option vec :=
  let d := if nl then s_fields_nl s else s_fields s in
  match find (fun p => String.eqb (fst p) name) [("Ez", d Ez); ("Hx", d Hx); ("Hy", d Hy); ("Hz", d Hz); ("Ex", d Ex); ("Ey", d Ey)] with
  | Some p => snd p
  | None => None
  end.
Theorem C53_argument_names :
  forall name nl, (new_obj_arg name nl = Raise ValueError <-> ~ In name ["Ex"; "Ey"; "Ez"; "Hx"; "Hy"; "Hz"]) /\
  (In name ["Ex"; "Ey"; "Ez"; "Hx"; "Hy"; "Hz"] -> exists a, new_obj_arg name nl = Ok a).
Proof.
  intros name nl. unfold new_obj_arg, comp_of_string.
  assert (D: In name ["Ex"; "Ey"; "Ez"; "Hx"; "Hy"; "Hz"] \/ ~ In name ["Ex"; "Ey"; "Ez"; "Hx"; "Hy"; "Hz"]) by (destruct (in_dec string_dec name ["Ex"; "Ey"; "Ez"; "Hx"; "Hy"; "Hz"]); auto).
  destruct D as [D|D].
  - assert (H := D). cbn [In] in H. repeat (destruct H as [<-|H]; [cbn; split; [split; [discriminate|intro N; exfalso; apply N; cbn; tauto]|intros _; eexists; reflexivity]|]). destruct H.
  - assert (N: forall w, In w ["Ex"; "Ey"; "Ez"; "Hx"; "Hy"; "Hz"] -> String.eqb name w = false).
    { intros w Hw. apply String.eqb_neq. intros ->. contradiction. }
    rewrite !N by (cbn; tauto). split; [split; auto|contradiction].
Qed.
Lemma arg_fields_named s l specs Fs :
  Forall2 (fun sp a => new_obj_arg (fst sp) (snd sp) = Ok a) specs l -> arg_fields s l = Ok Fs ->
  Forall2 (fun sp F => stored_field s (fst sp) (snd sp) = Some F) specs Fs.
Proof.
  intro H. revert Fs. induction H as [|[name nl] a specs l H1 H2 IH]; intros Fs H; cbn [arg_fields] in H; [injection H as <-; constructor|].
  cbn [fst snd] in *.
  destruct (if oa_nl a then _ else _) as [F|] eqn:EF; [|discriminate]. destruct (arg_fields s l) as [Fs'|]; [|discriminate]. injection H as <-.
  constructor; [|apply IH; reflexivity]. cbn [fst snd].
  destruct (C53_argument_names name nl) as [K _]. unfold new_obj_arg in H1, K.
  assert (D: In name ["Ex"; "Ey"; "Ez"; "Hx"; "Hy"; "Hz"]).
  { destruct (in_dec string_dec name ["Ex"; "Ey"; "Ez"; "Hx"; "Hy"; "Hz"]) as [D|D]; [exact D|]. apply K in D. rewrite D in H1. discriminate. }
  clear K. cbn [In] in D. repeat (destruct D as [<-|D]; [cbn in H1; injection H1 as <-; cbn [oa_nl oa_comp] in EF; destruct nl; exact EF|]). destruct D.
Qed.
(** The objective function gets, in order, the fields stored under the names of its arguments. *)
Theorem C53_fields_of_the_names :
  forall e J specs args ob o s o' s' v,
  Forall2 (fun sp a => new_obj_arg (fst sp) (snd sp) = Ok a) specs args ->
  Objective J args = Ok ob -> o_objective o = ob -> o_current o = false ->
  compute_J e (o, s) = ((o', s'), Ok v) ->
  exists Fs, Forall2 (fun sp F => stored_field s' (fst sp) (snd sp) = Some F) specs Fs /\ v = pf_val J Fs.
Proof.
  intros e J specs args ob o s o' s' v HA HO Ho Hc H.
  destruct (Objective_ok _ _ _ HO) as [-> HL].
  unfold compute_J, bind, getS, lift, solve_arg_fields, needs_solve in H. rewrite Hc in H. cbn [negb] in H.
  destruct (solve_fields e false false s) as [s1 [F|x]]; [|discriminate]. cbv zeta in H.
  destruct (if is_linear (o_objective o) then _ else _) as [s2 [[]|x]]; [|discriminate].
  rewrite Ho in H. cbn [set_J ob_args] in H.
  destruct (arg_fields s2 args) as [l|] eqn:EF; [|discriminate].
  cbn [fst stored_args upd_arglist o_arglist o_objective] in H. rewrite Ho in H. cbn [set_J ob_J] in H. unfold pf_call in H.
  destruct (Nat.eqb _ _); [|discriminate]. injection H as _ <- <-. exists l. split; [|reflexivity].
  eapply arg_fields_named; eassumption.
Qed.

(* ------------------------------------------------------------------ *)
(** * C47: the gradient that LBFGS is given *)

(** number of design pixels before pixel p: the position of p in the design vector *)
Definition position (design : rvec) (p : nat) : nat :=
  List.length (List.filter (fun q => if Req_EM_T (design q) 1 then true else false) (List.seq 0 p)).
(** For linear objectives of Ez, Hx, Hy (no filter): the vector handed to the library at x holds,
    at the position of each design pixel, the derivative of minus the objective with respect to the
    density of this pixel, at the density that holds x (the value handed over: C47_lbfgs_value_partial). *)
Theorem C47_lbfgs_gradient :
  forall e x o s o1 s1 rho J args ob st2 h,
  set_design_region x (o, s) = ((o1, s1), Ok tt) ->
  solver_exact e ->
  s_pol s1 = PolEz -> consistent s1 -> nd_size (s_src s1) = s_M s1 -> nonsingular (s_M s1) (s_A s1) ->
  s_rho s1 = Val rho -> in_step o1 s1 rho ->
  Objective J args = Ok ob -> o_objective o1 = ob ->
  (forall a, In a args -> exists c, (c = "Ez" \/ c = "Hx" \/ c = "Hy")%string /\ new_obj_arg c false = Ok a) ->
  o_W o1 = rId -> (0 < o_beta o1)%R -> (0 <= o_eta o1 <= 1)%R ->
  differentiable_at_fields e o1 s1 J ->
  lb_serve e (CallG x) (o, s) = (st2, Ok (OutG h)) ->
  forall p, (p < s_M s1)%nat -> o_design o1 p = 1%R ->
  exists Jt, objective_of_pixel e o1 s1 rho p Jt /\ is_derive (fun t => - Jt t)%R 0%R (h (position (o_design o1) p)).
Proof.
  intros e x o s o1 s1 rho J args ob st2 h HX He Hpol HC Hsrc HN Hrho HS Hob Ho Ha HW Hb Het HG HL p Hp Hd.
  assert (F1: o_current o1 = false).
  { apply set_region_spec in HX as [(_ & r & _ & [E|E])|((y & E) & _)]; [injection E as -> _; reflexivity..|discriminate]. }
  destruct (C36_linear_gradient_Ez_polarization e o1 s1 rho J args ob He Hpol HC Hsrc HN Hrho HS Hob Ho Ha HW F1 Hb Het HG) as (st1 & g & EG & H).
  destruct (proj1 (H p Hp) Hd) as (Jt & HJ & HD). exists Jt. split; [exact HJ|].
  cbn [lb_serve] in *. unfold bind, getS, ret in *. rewrite HX in *. rewrite EG in HL. injection HL as _ <-.
  assert (FR: s_M (snd st1) = s_M s1 /\ o_design (fst st1) = o_design o1).
  { destruct st1 as [o2 s2]. apply compute_dJ_frame in EG as (C & [S _] & _). split; [unfold s_M; destruct S as (_ & _ & _ & _ & _ & EX & EY & _); cbn; congruence|]. destruct C as (_ & E & _). exact E. }
  destruct FR as [-> ->]. unfold get_design_region, position. change (List.length _) with (design_rank (o_design o1) p).
  destruct (nth_rank (s_M s1) (o_design o1) p Hp Hd) as [_ ->]. exact (is_derive_opp Jt 0%R _ HD).
Qed.

(* ------------------------------------------------------------------ *)
(** * C55: the equation of the line *)

(** second difference on a ring of N pixels, divided by the square of the pixel *)
Definition second_difference (dl : R) (N : nat) (v : vec) (k : nat) : C :=
  ((v (next N k) - RtoC 2 * v k + v (prev N k)) / RtoC (dl * dl))%C.
(** the permittivity between pixel k-1 and pixel k of the line as the code takes it: averaged on
    a line along x, that of pixel k on a line along y *)
Definition eps_between (L : nd R) (k : nat) : R :=
  if Nat.eqb (nd_nx L) 1 then nd_buf L k else ((nd_buf L (prev (nd_size L) k) + nd_buf L k) / 2)%R.
Definition weighted_second_difference (dl : R) (N : nat) (L : nd R) (v : vec) (k : nat) : C :=
  (RtoC (nd_buf L k) * ((v (next N k) - v k) / RtoC (eps_between L (next N k)) - (v k - v (prev N k)) / RtoC (eps_between L k)) / RtoC (dl * dl))%C.
Lemma D1_fwd dl N v k : dl <> 0%R -> (2 <= N)%nat -> (k < N)%nat ->
  mv N (createDws AxX Fwd dl 1 N 1) v k = ((v (next N k) - v k) / RtoC dl)%C.
Proof.
  intros Hd HN Hk. assert (H := Dxf_stencil dl 1 N 1 Hd v k 0 HN Hk ltac:(lia)). unfold diff_xf, pix in H.
  rewrite Nat.mul_1_r in H. rewrite !Nat.mul_1_r, !Nat.add_0_r in H. exact H.
Qed.
Lemma D1_bwd dl N v k : dl <> 0%R -> (2 <= N)%nat -> (k < N)%nat ->
  mv N (createDws AxX Bwd dl 1 N 1) v k = ((v k - v (prev N k)) / RtoC dl)%C.
Proof.
  intros Hd HN Hk. assert (H := Dxb_stencil dl 1 N 1 Hd v k 0 HN Hk ltac:(lia)). unfold diff_xb, pix in H.
  rewrite Nat.mul_1_r in H. rewrite !Nat.mul_1_r, !Nat.add_0_r in H. exact H.
Qed.
Lemma next_lt N k : (k < N)%nat -> (next N k < N)%nat.
Proof. unfold next. destruct (Nat.eqb_spec (S k) N); lia. Qed.
Lemma prev_next N k : (k < N)%nat -> prev N (next N k) = k.
Proof. unfold next. destruct (Nat.eqb_spec (S k) N); intro H; cbn; lia. Qed.
Lemma prev_lt N k : (k < N)%nat -> (prev N k < N)%nat.
Proof. destruct k; cbn; lia. Qed.
Lemma prev_mod N k : (k < N)%nat -> ((k + N - 1) mod N)%nat = prev N k.
Proof.
  intro H. destruct k as [|k]; cbn [prev].
  - apply Nat.mod_small. lia.
  - replace (S k + N - 1)%nat with (k + 1 * N)%nat by lia. rewrite Nat.mod_add by lia. apply Nat.mod_small. lia.
Qed.
Lemma line_average L k : (k < nd_size L)%nat -> (nd_nx L = 1 \/ nd_ny L = 1)%nat ->
  grid_average AxX (nd_nx L) (nd_ny L) (cvec (nd_buf L)) k = RtoC (eps_between L k).
Proof.
  intros Hk HL. unfold grid_average, roll1, eps_between, nd_size, cvec in *. destruct (Nat.eqb_spec (nd_nx L) 1) as [E|E].
  - rewrite E in *. rewrite Nat.mod_1_r. cbn [Nat.mul Nat.add]. rewrite Nat.mod_small by lia. apply C_ext; autorewrite with reim; cbn; field.
  - destruct HL as [?|HL]; [contradiction|]. rewrite HL in *. rewrite Nat.mul_1_r in *. rewrite Nat.div_1_r, Nat.mod_1_r, Nat.mul_1_r, Nat.add_0_r.
    rewrite prev_mod by exact Hk. rewrite <- RtoC_plus, <- RtoC_div by lra. reflexivity.
Qed.

(** The eigenvectors the code asks for are the discrete solutions, periodic on the line, of
    v'' + omega^2 mu eps v = lambda v (Ez) and eps ((1/eps) v')' + omega^2 mu eps v = lambda v (Hz). *)
Theorem C55_equation_of_the_line :
  forall s L lam v, s_dl s <> 0%R -> s_L0 s <> 0%R -> (nd_nx L = 1 \/ nd_ny L = 1)%nat -> (2 <= nd_size L)%nat ->
  (forall k, (k < nd_size L)%nat -> (0 < nd_buf L k)%R) ->
  unit_eigenvector (nd_size L) (mode_matrix s L) lam v ->
  forall k, (k < nd_size L)%nat ->
  (RtoC (s_omega s ^ 2 * (MU_0 * s_L0 s) * (EPSILON_0 * s_L0 s) * nd_buf L k) * v k +
   match s_pol s with
   | PolEz => second_difference (s_dl s) (nd_size L) v k
   | PolHz => weighted_second_difference (s_dl s) (nd_size L) L v k
   end = lam * v k)%C.
Proof.
  intros s L lam v Hd HL0 HL HN Hpos [HE _] k Hk. rewrite <- HE by exact Hk. clear HE.
  assert (HD: RtoC (s_dl s) <> RtoC 0) by (apply RtoC_neq0; exact Hd).
  assert (B: forall j, (j < nd_size L)%nat -> (0 < eps_between L j)%R).
  { intros j Hj. unfold eps_between. destruct (Nat.eqb _ 1); [apply Hpos, Hj|]. assert (P1 := Hpos _ (prev_lt _ _ Hj)). assert (P2 := Hpos _ Hj). lra. }
  assert (E0: RtoC (EPSILON_0 * s_L0 s) <> RtoC 0). { apply RtoC_neq0. apply Rmult_integral_contrapositive_currified; [|exact HL0]. apply Rgt_not_eq, EPSILON_0_pos. }
  unfold mode_matrix. destruct (s_pol s); cbv zeta.
  - rewrite mv_mplus, mv_mscal, mv_mm. unfold spdiags. rewrite mv_diag by exact Hk. f_equal.
    + rewrite Cmult_assoc, <- RtoC_mult. f_equal. f_equal. ring.
    + rewrite D1_fwd by assumption. rewrite !D1_bwd by (assumption || apply next_lt; exact Hk). rewrite prev_next by exact Hk.
      unfold second_difference. rewrite (RtoC_mult (s_dl s)). replace (RtoC 2) with (RtoC 1 + RtoC 1)%C by (rewrite <- RtoC_plus; f_equal; ring). field. exact HD.
  - rewrite mv_mplus, mv_mscal, !mv_mm. unfold spdiags. rewrite !mv_diag by exact Hk. f_equal.
    + rewrite Cmult_assoc, <- RtoC_mult. f_equal. f_equal. ring.
    + rewrite D1_fwd by assumption. rewrite !mv_diag by (assumption || apply next_lt; exact Hk). rewrite !D1_bwd by (assumption || apply next_lt; exact Hk).
      rewrite prev_next by exact Hk. rewrite !line_average by (assumption || apply next_lt; exact Hk).
      unfold weighted_second_difference. rewrite !RtoC_mult. rewrite RtoC_mult in E0.
      assert (N1: RtoC (eps_between L (next (nd_size L) k)) <> RtoC 0) by (apply RtoC_neq0, Rgt_not_eq, B, next_lt, Hk).
      assert (N2: RtoC (eps_between L k) <> RtoC 0) by (apply RtoC_neq0, Rgt_not_eq, B, Hk).
      assert (E1: RtoC EPSILON_0 <> RtoC 0) by (apply RtoC_neq0, Rgt_not_eq, EPSILON_0_pos).
      assert (E2: RtoC (s_L0 s) <> RtoC 0) by (apply RtoC_neq0; exact HL0).
      field. auto.
Qed.

(* ------------------------------------------------------------------ *)
(** * C57: negative positions *)

(** A position given by a negative index: the straight waveguide in which the input power is
    measured continues the column (row) that the index denotes, counted from the end. *)
Theorem C57_negative_index_names_the_column :
  forall m eps eps' c, norm_structure m eps = Ok (eps', c) ->
  exists top, forall i j, (i < nd_nx eps)%nat -> (j < nd_ny eps)%nat ->
  (md_normal m = "x" -> (fst (md_center m) < 0)%Z ->
     exists i0, (Z.of_nat i0 = Z.of_nat (nd_nx eps) + fst (md_center m))%Z /\ (i0 < nd_nx eps)%nat /\
     nd_at eps' i j = if Rlt_dec 1 (nd_at eps i0 j) then top else 1%R) /\
  (md_normal m = "y" -> (snd (md_center m) < 0)%Z ->
     exists j0, (Z.of_nat j0 = Z.of_nat (nd_ny eps) + snd (md_center m))%Z /\ (j0 < nd_ny eps)%nat /\
     nd_at eps' i j = if Rlt_dec 1 (nd_at eps i j0) then top else 1%R).
Proof.
  intros m eps eps' c H. exists (rmax (nd_size eps) (fun k => Rabs (nd_buf eps k))). intros i j Hi Hj.
  unfold norm_structure, py_index in H.
  split; intros Hn Hc; rewrite Hn in H.
  - change (String.eqb "x" "x") with true in H. cbn iota in H.
    destruct ((Z.leb _ _ && Z.ltb _ _)%bool) eqn:EB; [|discriminate]. apply andb_true_iff in EB as [E1 E2]. apply Z.leb_le in E1. apply Z.ltb_lt in E2.
    rewrite (proj2 (Z.ltb_lt _ _) Hc) in H. injection H as <- <-. eexists. split; [|split; [|unfold nd_at at 1; cbn [nd_buf nd_ny]; destruct (flat2 i (nd_ny eps) j Hj) as [_ ->]; reflexivity]]; lia.
  - change (String.eqb "y" "x") with false in H. change (String.eqb "y" "y") with true in H. cbn iota in H.
    destruct ((Z.leb _ _ && Z.ltb _ _)%bool) eqn:EB; [|discriminate]. apply andb_true_iff in EB as [E1 E2]. apply Z.leb_le in E1. apply Z.ltb_lt in E2.
    rewrite (proj2 (Z.ltb_lt _ _) Hc) in H. injection H as <- <-. eexists. split; [|split; [|unfold nd_at at 1; cbn [nd_buf nd_ny]; destruct (flat2 i (nd_ny eps) j Hj) as [-> _]; reflexivity]]; lia.
Qed.

(* ------------------------------------------------------------------ *)
(** * C52: the source of a point of the scan *)

Lemma mode_ext (a b : mode) : md_neff a = md_neff b -> md_normal a = md_normal b -> md_center a = md_center b ->
  md_width a = md_width b -> md_order a = md_order b -> md_scale a = md_scale b -> a = b.
Proof. destruct a, b; cbn; intros; subst; reflexivity. Qed.
(** At the point with scale x of the scan the source and the input power are those of the first
    mode of the simulation with its scale replaced by x; the other modes of the simulation are not
    set up. *)
Theorem C52_source_of_the_point :
  forall e solver x s W s2 s3 m t m', point_of e solver x s W s2 s3 -> s_modes s = m :: t ->
  md_neff m' = md_neff m -> md_normal m' = md_normal m -> md_center m' = md_center m ->
  md_width m' = md_width m -> md_order m' = md_order m -> md_scale m' = x ->
  exists d, setup_src e m' s = (d, Ok tt) /\ s_src s2 = s_src d /\ s_W_in d = Val W /\ s_src s3 = s_src d.
Proof.
  intros e solver x s W s2 s3 m t m' HP HM H1 H2 H3 H4 H5 H6.
  assert (HS := C52_nonlinear_fields_of_the_point e solver x s W s2 s3 HP). destruct HS as [HS _].
  destruct HP as (m0 & t0 & EM & E1 & EW & E2). rewrite HM in EM. injection EM as <- <-.
  assert (EQ: m' = with_scale m x) by (apply mode_ext; assumption). subst m'.
  apply (setup_transfer e _ (s_modes s) (s_fields s)) in E1.
  replace (upd_modes (s_modes s) (upd_fields (s_fields s) (upd_modes (with_scale m x :: t) s))) with s in E1 by (destruct s; reflexivity).
  eexists. split; [exact E1|]. cbn [upd_modes upd_fields s_src s_W_in]. split; [reflexivity|]. split; [exact EW|].
  unfold same_problem in HS. intuition congruence.
Qed.

(* ------------------------------------------------------------------ *)
(** * Concrete cases *)

(** The 5 x 4 simulation of C36_met: a vector is stored, the gradient is served. *)
Example C47_gradient_met :
  exists e x o s o1 s1 rho J args ob st2 h,
  set_design_region x (o, s) = ((o1, s1), Ok tt) /\ solver_exact e /\
  s_pol s1 = PolEz /\ consistent s1 /\ nd_size (s_src s1) = s_M s1 /\ nonsingular (s_M s1) (s_A s1) /\
  s_rho s1 = Val rho /\ in_step o1 s1 rho /\ Objective J args = Ok ob /\ o_objective o1 = ob /\
  (forall a, In a args -> exists c, (c = "Ez" \/ c = "Hx" \/ c = "Hy")%string /\ new_obj_arg c false = Ok a) /\
  o_W o1 = rId /\ (0 < o_beta o1)%R /\ (0 <= o_eta o1 <= 1)%R /\ differentiable_at_fields e o1 s1 J /\
  lb_serve e (CallG x) (o, s) = (st2, Ok (OutG h)) /\ (9 < s_M s1)%nat /\ o_design o1 9%nat = 1%R /\
  (* ... and the objective is evaluated with the three named fields *)
  exists o' s' v, compute_J e (o1, s1) = ((o', s'), Ok v) /\
    Forall2 (fun sp a => new_obj_arg (fst sp) (snd sp) = Ok a) [("Ez", false); ("Hx", false); ("Hy", false)] args.
Proof.
  destruct C36_met as (s0 & args & ob & o & H0 & HA & HO & HB & HH). cbv zeta in HH.
  set (s := with_density o (upd_src (mkNd 5 4 ex_src) s0) ex_rho) in *.
  destruct HH as (P1 & P2 & P3 & P4 & P5 & P6 & P7 & P8 & P9 & P10 & P11 & P12 & P13 & P14 & _).
  set (x := get_design_region (s_M s) (o_design o) ex_rho).
  destruct (C46_design_vector_is_stored x o s ex_rho P5) as (o1 & s1 & rho' & E & R2 & B2 & O2 & K1 & K2).
  assert (ES: s1 = s).
  { apply K1. unfold region_error, region_norm, x. rewrite (rnrm_zero _ (fun k => _)) by (intros; ring).
    apply Rmult_le_pos; [lra|apply rnrm_ge0]. }
  assert (EO: o1 = upd_current false o).
  { apply set_region_spec in E as [(_ & r & _ & [E|E])|((y & E) & _)]; [injection E as -> _; reflexivity..|discriminate]. }
  assert (EO': o1 = o). { rewrite EO. destruct o; cbn in *; subst; reflexivity. }
  clear EO. subst s1 o1.
  assert (Ha: forall a, In a args -> exists c, (c = "Ez" \/ c = "Hx" \/ c = "Hy")%string /\ new_obj_arg c false = Ok a).
  { inversion HA as [|? ? ? ? A1 HA1]; subst. inversion HA1 as [|? ? ? ? A2 HA2]; subst. inversion HA2 as [|? ? ? ? A3 HA3]; subst. inversion HA3; subst.
    intros a [<-|[<-|[<-|[]]]]; eexists; (split; [|eassumption]); tauto. }
  destruct (C36_linear_gradient_Ez_polarization ex_env o s ex_rho _ args ob ex_env_exact P1 P2 P3 P4 P5 P6 HO P7 Ha P8 P9 P10 P11 P12) as (st1 & g & EG & _).
  assert (EL: exists st2 h, lb_serve ex_env (CallG x) (o, s) = (st2, Ok (OutG h))).
  { cbn [lb_serve]. unfold bind, getS, ret. rewrite E, EG. do 2 eexists. reflexivity. }
  destruct EL as (st2 & h & EL).
  exists ex_env, x, o, s, o, s, ex_rho, (intensity 20 3), args, ob, st2, h.
  do 18 (split; [first [assumption|exact ex_env_exact]|]).
  assert (HL: List.Forall lin_Ez_arg args).
  { apply Forall_forall. intros a Hin. destruct (Ha a Hin) as (c & Hc & H). eapply new_arg_Ez; eassumption. }
  destruct (Objective_ok _ _ _ HO) as [-> Har].
  assert (HJ := compute_J_lin ex_env o s _ args P9 P7 P1 P3 HL Har).
  do 3 eexists. split; [exact HJ|].
  inversion HA as [|? ? ? ? A1 HA1]; subst. inversion HA1 as [|? ? ? ? A2 HA2]; subst. inversion HA2 as [|? ? ? ? A3 HA3]; subst. inversion HA3; subst.
  repeat constructor; assumption.
Qed.
(** A line of three pixels of permittivity 2 with its constant eigenvector. *)
Example C55_equation_met :
  exists s L lam v, s_dl s <> 0%R /\ s_L0 s <> 0%R /\ (nd_nx L = 1 \/ nd_ny L = 1)%nat /\ (2 <= nd_size L)%nat /\
  (forall k, (k < nd_size L)%nat -> (0 < nd_buf L k)%R) /\ unit_eigenvector (nd_size L) (mode_matrix s L) lam v.
Proof.
  destruct (fam_sim_ok "Ez" 9 6 0 0 two_eps (or_introl eq_refl)) as [s H0].
  destruct (fam_basic _ _ _ _ H0) as (Hp & Hd & HL & Ho & _).
  exists s, (mkNd 1 3 (fun _ => 2%R)), (RtoC (s_omega s ^ 2 * (MU_0 * s_L0 s) * (EPSILON_0 * s_L0 s * 2))), (fun _ => RtoC (/ sqrt 3)).
  split; [rewrite Hd; lra|]. split; [rewrite HL; lra|]. split; [left; reflexivity|]. split; [cbn; lia|]. split; [intros; cbn; lra|].
  split.
  - intros k Hk. assert (Q := uniform_line_eigen s (mkNd 1 3 (fun _ => 2%R)) 2 (fun _ => RtoC (/ sqrt 3)) Hp). rewrite Q; try assumption; try reflexivity; try (rewrite Hd; lra); try (cbn; lia).
  - change (nd_size (mkNd 1 3 (fun _ : nat => 2%R))) with 3%nat. cbn [rsum]. rewrite Cmod_R. 
    assert (T: (Rabs (/ sqrt 3) ^ 2 = / 3)%R). { rewrite <- third. rewrite <- Rsqr_pow2, <- Rsqr_abs. reflexivity. }
    rewrite T. lra.
Qed.
Example C52_source_met : exists e s W s2 s3 m t, point_of e "born" 1 s W s2 s3 /\ s_modes s = m :: t.
Proof.
  destruct C52_met as [(e & s & W & s2 & s3 & _ & _ & _ & _ & _ & H) _]. assert (H' := H). destruct H' as (m & t & E & _).
  exists e, s, W, s2, s3, m, t. auto.
Qed.
