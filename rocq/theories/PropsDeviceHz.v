(** C91: a Device of a simulation in polarization Hz (data/device_saver.py:33-77). *)
From Coq Require Import Reals Lra Lia List ZArith Arith Bool String.
From Coquelicot Require Import Coquelicot.
From Verif Require Import Base Linear MCore MSim MFilter MOpt MMode MStruct MDevice Spec PCore PSim POpt PropsStruct PEx PExOpt PMode PropsCore PropsSolve PropsLin PropsIter PropsOpt3 PropsFlux PropsMode PropsScan PropsGrad PropsOpt2 PropsFlat PropsDevice PGrad PropsGradHz.
Import ListNotations.
Local Open Scope string_scope.

(** Specification: the device after a list of calls, whether they raised or not *)
Definition after_calls (e : env) (cs : list dev_call) (d : device) : device :=
  List.fold_left (fun d c => fst (call e c d)) cs d.

Definition hz_inv (L0 : R) (d : device) : Prop :=
  dv_dict d "Ez" = Some (VField None) /\ dv_dict d "L0" = Some (VNum L0) /\ ~ flag d "are_parameters_set" /\ ~ flag d "is_data_generated" /\ dev_inv d.

Lemma hz_only {A} K L0 (m : St device A) d d' r : only K m -> m d = (d', r) ->
  List.existsb (fun k => List.existsb (String.eqb k) K) ["Ez"; "L0"; "are_parameters_set"; "is_data_generated"] = false ->
  dev_inv d' -> hz_inv L0 d -> hz_inv L0 d'.
Proof.
  intros HO Hm HK HI (A1 & A2 & A3 & A4 & _). destruct (HO _ _ _ Hm) as [H1 _].
  assert (N : forall k, List.existsb (String.eqb k) K = false -> ~ List.In k K).
  { intros k Hk Hin. assert (List.existsb (String.eqb k) K = true) by (apply List.existsb_exists; exists k; split; [exact Hin|apply String.eqb_refl]). congruence. }
  cbn [List.existsb] in HK. apply Bool.orb_false_iff in HK as [K1 HK]. apply Bool.orb_false_iff in HK as [K2 HK]. apply Bool.orb_false_iff in HK as [K3 HK]. apply Bool.orb_false_iff in HK as [K4 _].
  unfold hz_inv, flag. rewrite !H1 by (apply N; assumption). auto.
Qed.
Lemma hz_parameters L0 lambda0 dl NPML chi3 eps_m amp d : hz_inv L0 d ->
  hz_inv L0 (fst (set_parameters lambda0 dl NPML chi3 eps_m amp d)) /\
  snd (set_parameters lambda0 dl NPML chi3 eps_m amp d) =
    Raise (if Req_EM_T lambda0 0 then ZeroDivisionError else if Req_EM_T dl 0 then ZeroDivisionError else if Req_EM_T L0 0 then ZeroDivisionError else AttributeError).
Proof.
  intros HI. assert (HI' := HI). destruct HI as (A1 & A2 & A3 & A4 & A5). split.
  - destruct (set_parameters lambda0 dl NPML chi3 eps_m amp d) as [d' r] eqn:E. cbn [fst].
    assert (I := inv_parameters _ _ _ _ _ _ _ _ _ E A5).
    destruct (parameters_cases _ _ _ _ _ _ _ _ _ E) as (_ & _ & _ & [(f & g & _ & _ & _ & _ & _ & _ & (v & V) & _)|[_ K]]); [rewrite A1 in V; discriminate|].
    unfold hz_inv, flag. rewrite !K by (cbn [List.In]; intuition discriminate). auto.
  - unfold set_parameters, py_div.
    destruct (Req_EM_T lambda0 0) as [El|El]; [|destruct (Req_EM_T dl 0) as [Ed|Ed]];
      unfold bind, setattr, modS, getnum, getattr, bind, lift, getS, ret, raise; cbv beta iota zeta;
      cbn [dv_dict dv_sim dv_opt dv_osim String.eqb Ascii.eqb Bool.eqb snd]; [reflexivity|reflexivity|].
    rewrite A2. cbn [as_num]. destruct (Req_EM_T L0 0) as [E0|E0]; [reflexivity|].
    cbn [dv_dict dv_sim dv_opt dv_osim String.eqb Ascii.eqb Bool.eqb]. rewrite A1. reflexivity.
Qed.
Lemma hz_call e L0 c d : hz_inv L0 d -> hz_inv L0 (fst (call e c d)).
Proof.
  intro HI. assert (HI' := HI). destruct HI as (A1 & A2 & A3 & A4 & A5).
  destruct (call e c d) as [d' r] eqn:E. cbn [fst]. destruct c; cbn [call] in E.
  - assert (H := proj1 (hz_parameters L0 lambda0 dl NPML chi3 eps_m source_amp d HI')). rewrite E in H. exact H.
  - assert (I := inv_geometry _ _ _ _ _ E A5). destruct (geometry_cases _ _ _ _ _ E) as (_ & _ & _ & [(Ht & _ & _ & _ & _ & _ & K)|(_ & _ & ->)]); [|exact HI'].
    assert (N : forall k, List.In k ["Ez"; "L0"; "are_parameters_set"; "is_data_generated"] -> ~ List.In k ("structure_type" :: "is_geometry_set" :: arguments_of structure_type)).
    { intros k Hk. cbn [List.In] in Ht. destruct Ht as [<-|[<-|[<-|[]]]]; cbn [arguments_of String.eqb Ascii.eqb Bool.eqb List.In];
        repeat (destruct Hk as [<-|Hk]; [intuition discriminate|]); destruct Hk. }
    unfold hz_inv, flag. rewrite !K by (apply N; cbn [List.In]; tauto). auto.
  - assert (I := inv_generate _ _ _ _ _ _ _ _ E A5).
    destruct r as [[]|x]; [destruct (generate_ok _ _ _ _ _ _ _ A5 E) as (F & _); contradiction|].
    unfold generate_data, bind in E.
    assert (S1 := fun d1 r1 => hz_only _ L0 _ d d1 r1 (only_shift e)).
    destruct (dev_index_shift e d) as [d1 [[]|]] eqn:E1; [|injection E as <- _; eapply hz_only; [apply only_shift|exact E1|reflexivity|exact I|exact HI']].
    assert (I1 := inv_shift _ _ _ _ E1 A5). assert (H1 : hz_inv L0 d1) by (eapply hz_only; [apply only_shift|exact E1|reflexivity|exact I1|exact HI']).
    destruct (calc_transmissions d1) as [d2 [[]|]] eqn:E2; [|injection E as <- _; eapply hz_only; [apply only_trans|exact E2|reflexivity|exact I|exact H1]].
    assert (I2 := inv_trans _ _ _ E2 I1). assert (H2 : hz_inv L0 d2) by (eapply hz_only; [apply only_trans|exact E2|reflexivity|exact I2|exact H1]).
    destruct (freq_scan e Nf d2) as [d3 [[]|]] eqn:E3; [|injection E as <- _; eapply hz_only; [apply only_freq|exact E3|reflexivity|exact I|exact H2]].
    assert (I3 := inv_freq _ _ _ _ _ E3 I2). assert (H3 : hz_inv L0 d3) by (eapply hz_only; [apply only_freq|exact E3|reflexivity|exact I3|exact H2]).
    destruct (power_scan e Np s_min s_max d3) as [d4 [[]|]] eqn:E4; [discriminate|injection E as <- _; eapply hz_only; [apply only_power|exact E4|reflexivity|exact I|exact H3]].
  - eapply hz_only; [apply only_shift|exact E|reflexivity|exact (inv_shift _ _ _ _ E A5)|exact HI'].
  - eapply hz_only; [apply only_trans|exact E|reflexivity|exact (inv_trans _ _ _ E A5)|exact HI'].
  - eapply hz_only; [apply only_freq|exact E|reflexivity|exact (inv_freq _ _ _ _ _ E A5)|exact HI'].
  - eapply hz_only; [apply only_power|exact E|reflexivity|exact (inv_power _ _ _ _ _ _ _ E A5)|exact HI'].
Qed.
Lemma hz_new e s o so d : Device e s o so = Ok d -> s_pol s = PolHz -> tidy s -> hz_inv (s_L0 s) d.
Proof.
  intros H HP HT. assert (I := inv_new _ _ _ _ _ H). unfold Device, setattr, modS, bind, getS, on_sim in H. cbn [dv_sim dv_opt dv_osim dv_dict] in H.
  destruct (solve_fields e false false s) as [s1 [F|]] eqn:E1; [|discriminate]. cbn [dv_sim dv_opt dv_osim dv_dict] in H.
  destruct (solve_fields_nl_default e s1) as [s2 [[G c]|]] eqn:E2; [|discriminate]. injection H as <-.
  apply lin_solve_tidy in E1 as [S1 T1]. apply nl_solve_tidy in E2 as [S2 T2].
  assert (P2 : s_pol s2 = PolHz). { unfold same_problem in S1, S2. intuition congruence. }
  destruct (T2 (T1 HT) Ez) as [Q _]; [rewrite P2; intros [X|[X|X]]; discriminate X|].
  unfold hz_inv, flag. cbn [dv_sim dv_opt dv_osim dv_dict String.eqb Ascii.eqb Bool.eqb].
  split; [do 2 f_equal; exact Q|]. split; [reflexivity|]. split; [discriminate|]. split; [discriminate|]. exact I.
Qed.

(** In polarization Hz there is no field Ez: set_parameters raises AttributeError (or
    ZeroDivisionError) whatever was called before, and no data is ever generated. *)
Theorem C91_Hz_device_refused : forall e s o so d cs, Device e s o so = Ok d -> s_pol s = PolHz -> tidy s ->
  let d' := after_calls e cs d in
  dv_dict d' "Ez" = Some (VField None) /\ ~ flag d' "are_parameters_set" /\ ~ flag d' "is_data_generated" /\
  (forall lambda0 dl NPML chi3 eps_m amp, snd (set_parameters lambda0 dl NPML chi3 eps_m amp d') =
     Raise (if Req_EM_T lambda0 0 then ZeroDivisionError else if Req_EM_T dl 0 then ZeroDivisionError
            else if Req_EM_T (s_L0 s) 0 then ZeroDivisionError else AttributeError)) /\
  (forall Nf Np a b, exists x, snd (generate_data e Nf Np a b d') = Raise x).
Proof.
  intros e s o so d cs H HP HT d'. assert (HI : hz_inv (s_L0 s) d').
  { unfold d', after_calls. assert (H0 := hz_new _ _ _ _ _ H HP HT). clear H d'. revert d H0. induction cs as [|c cs IH]; intros d H0; [exact H0|]. cbn [List.fold_left]. apply IH, hz_call, H0. }
  assert (HI' := HI). destruct HI' as (A1 & A2 & A3 & A4 & A5). split; [exact A1|]. split; [exact A3|]. split; [exact A4|]. split.
  - intros. apply hz_parameters. exact HI.
  - intros Nf Np a b. destruct (generate_data e Nf Np a b d') as [d2 [[]|x]] eqn:E; [|exists x; reflexivity].
    destruct (generate_ok _ _ _ _ _ _ _ A5 E) as (F & _). contradiction.
Qed.

(** A concrete case: a simulation in polarization Hz of 2 x 2 pixels with a source. *)
Example C91_Hz_device_met : exists e s o so d, Device e s o so = Ok d /\ s_pol s = PolHz /\ tidy s /\ solver_exact e /\
  nonsingular (s_M s) (s_A s) /\ nd_buf (s_src s) 0 <> RtoC 0 /\ s_L0 s = 1%R.
Proof.
  destruct (fam_sim_ok "Hz" 2 2 0 0 (fun _ => 1%R) (or_intror eq_refl)) as [s0 H0].
  destruct (hz_facts s0 (set_J (intensity 4 1) [Hz_lin]) (fun _ => RtoC 1) H0) as (P & C & Ph & X & Y & N & E & S & NS & _ & _ & Ho & HL).
  set (s := with_density _ _ _) in *.
  assert (T : tidy s) by apply tidy_set_eps.
  assert (HM : s_M s = 4%nat) by (unfold s_M; rewrite X, Y; reflexivity).
  destruct (solve_fields_lin ex_env false s S) as (Z & HZ & HS). cbv zeta in HS.
  destruct (solve_fields_lin ex_env false (fst (solve_fields ex_env false false s)) ltac:(rewrite HS; exact S)) as (Z1 & HZ1 & HS1). cbv zeta in HS1.
  rewrite HS in HS1. cbn [fst] in HS1. rewrite HS in HZ1. cbn [fst] in HZ1.
  set (s1 := upd_fields _ s) in *.
  assert (HQ : no_nonlinearity s1).
  { unfold fam_sim, Simulation in H0. destruct (check_inputs _ _ _ _) eqn:EC; [|discriminate]. injection H0 as <-. intros q []. }
  assert (EZ : Z1 = Z). { change (s_M s1) with (s_M s) in HZ1. change (s_A s1) with (s_A s) in HZ1. change (rhs s1) with (rhs s) in HZ1. congruence. }
  edestruct (C34_no_nonlinearity_gives_linear_fields ex_env s1 false "hybrid" (1 / 10 ^ 10) 50) as (s2 & Fx & Fy & Fz & cv & HN & _);
    [exact ex_env_exact|exact HQ|exact NS|lia|apply Rdiv_lt_0_compat; [lra|apply pow_lt; lra]| | |exact HS1| | |].
  - change (s_omega s1) with (s_omega s). rewrite Ho. assert (W := ex_omega_pos). lra.
  - exists 0%nat. split; [change (s_M s1) with (s_M s); rewrite HM; lia|]. change (nd_buf (s_src s1) 0%nat) with (RtoC 1). intro Q. apply RtoC_neq0 in Q; lra.
  - right. exists Z. split; [|rewrite EZ; intros k _; reflexivity].
    change (s_pol s1) with (s_pol s). unfold s1. cbn [upd_fields s_fields]. apply store3_pol.
  - auto.
  - assert (HD : exists d, Device ex_env s (hz_opt (set_J (intensity 4 1) [Hz_lin])) s = Ok d).
    { unfold Device, setattr, modS, bind, getS, on_sim. cbn [dv_sim dv_opt dv_osim dv_dict]. rewrite HS. fold s1. cbn [dv_sim dv_opt dv_osim dv_dict].
      unfold solve_fields_nl_default. rewrite HN. eexists. reflexivity. }
    destruct HD as [d HD]. exists ex_env, s, (hz_opt (set_J (intensity 4 1) [Hz_lin])), s, d. split; [exact HD|].
    split; [exact P|]. split; [exact T|]. split; [exact ex_env_exact|]. split; [exact NS|].
    split; [change (nd_buf (s_src s) 0%nat) with (RtoC 1); intro Q; apply RtoC_neq0 in Q; lra|exact HL].
Qed.
