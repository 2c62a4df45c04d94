(** C102: data/get_stats.py prints what generate_data stored. *)
From Coq Require Import Reals Lra Lia List ZArith Arith Bool String.
From Coquelicot Require Import Coquelicot.
From Verif Require Import Base Linear MCore MSim MFilter MOpt MMode MStruct MDevice MStats Spec PCore PSim POpt PropsStruct PEx PExOpt PMode PropsCore PropsSolve PropsLin PropsIter PropsOpt3 PropsFlux PropsMode PropsScan PropsGrad PropsOpt2 PropsFlat PropsDevice.
Import ListNotations.
Local Open Scope string_scope.

(** x times a quotient *)
Definition times (x : R) (q : option R) : option R := option_map (Rmult x) q.
Lemma times_ratio x w W : ratio (x * w) W = times x (ratio w W).
Proof. unfold ratio, times. destruct (Req_EM_T W 0); [reflexivity|]. cbn. f_equal. field. assumption. Qed.

(** v is the largest of the n values of a *)
Definition is_max (n : nat) (a : rvec) (v : R) : Prop := (exists k, (k < n)%nat /\ a k = v) /\ forall k, (k < n)%nat -> (a k <= v)%R.
Lemma rmax_is_max n a : (0 < n)%nat -> is_max n a (rmax n a).
Proof. intro H. destruct (rmax_spec n a H) as [(k & Hk & E) B]. split; [exists k; split; [exact Hk|symmetry; exact E]|exact B]. Qed.

(** After generate_data: the input power in mW, the largest index shift, the quality factor
    (frequency over bandwidth), the bandwidth in GHz; for two ports the two transmissions stored;
    for orthogonal ports the entries of the table S in percent; for three ports no transmission.
    The device is not changed. *)
Theorem C102_stats_are_the_data : forall e d d' Nf Np s_min s_max, dev_history e d -> (0 < s_M (dv_sim d))%nat ->
  generate_data e Nf Np s_min s_max d = (d', Ok tt) ->
  exists W a dn om B rest,
    dv_dict d' "W_in" = Some (VNum W) /\ dv_dict d' "index_shift" = Some (VArray a) /\ is_max (s_M (dv_sim d)) a dn /\
    number d' "omega" om /\ dv_dict d' "FWHM" = Some (VNum B) /\
    get_stats e d' = (d', Ok ([("input power", Some (1000 * W)%R); ("index shift", Some dn); ("Q-factor", ratio (om / (2 * PI)) B); ("bandwidth", Some (B / 10 ^ 9)%R)] ++ rest)%list) /\
    (dv_dict d "structure_type" = Some (VStr "two_port") -> exists tl tn,
       dv_dict d' "T_lin" = Some (VQuot tl) /\ dv_dict d' "T_nl" = Some (VQuot tn) /\ rest = [("linear", tl); ("nonlinear", tn)]) /\
    (dv_dict d "structure_type" = Some (VStr "three_port") -> rest = []) /\
    (dv_dict d "structure_type" = Some (VStr "ortho_port") -> exists top right top_nl right_nl,
       dv_dict d' "S" = Some (VTable [[top; right]; [top_nl; right_nl]]) /\
       rest = [("linear right", times 100 right); ("linear top", times 100 top); ("nonlinear right", times 100 right_nl); ("nonlinear top", times 100 top_nl)]).
Proof.
  intros e d d' Nf Np sa sb Hd HM H. destruct (generate_ok _ _ _ _ _ _ _ (history_inv _ _ Hd) H) as (_ & _ & d1 & d2 & d3 & d4 & H1 & H2 & H3 & H4 & E5 & _).
  destruct (only_shift e _ _ _ H1) as [O1 _]. destruct (only_trans _ _ _ H2) as [O2 _]. destruct (only_freq e Nf _ _ _ H3) as [O3 _]. destruct (only_power e Np sa sb _ _ _ H4) as [O4 _].
  assert (K : same_problem (dv_sim d) (dv_sim d')).
  { rewrite E5. cbn [dv_sim]. eapply same_trans; [exact (keeps_shift _ _ _ _ H1)|]. eapply same_trans; [exact (keeps_trans _ _ _ H2)|].
    eapply same_trans; [exact (keeps_freq _ _ _ _ _ H3)|exact (keeps_power _ _ _ _ _ _ _ H4)]. }
  destruct (same_system _ _ K) as (EM & _).
  assert (D2 : forall n, ~ List.In n ["is_data_generated"; "powers"; "transmissions"; "freqs"; "objs"; "FWHM"; "Q"] -> dv_dict d' n = dv_dict d2 n).
  { intros n Hn. cbn [List.In] in Hn. rewrite E5. cbn [dv_dict]. destruct (String.eqb_spec n "is_data_generated") as [->|_]; [tauto|]. rewrite O4 by (cbn [List.In]; tauto). apply O3. cbn [List.In]. tauto. }
  assert (D1 : dv_dict d' "index_shift" = dv_dict d1 "index_shift") by (rewrite D2 by isnt; apply O2; isnt).
  assert (IS : exists a, dv_dict d1 "index_shift" = Some (VArray a)).
  { unfold dev_index_shift in H1. destruct (bind_ok _ _ _ _ _ H1) as (x & a & _ & Hx). unfold setattr, modS in Hx. injection Hx as <-. exists a. reflexivity. }
  destruct IS as [a Ha]. rewrite <- D1 in Ha.
  assert (FQ : exists om B, number d' "omega" om /\ dv_dict d' "FWHM" = Some (VNum B) /\ dv_dict d' "Q" = Some (VQuot (ratio (om / 2 / PI) B))).
  { unfold freq_scan in H3. destruct (bind_ok _ _ _ _ _ H3) as (x & [[fs os] B] & Hx & H5). clear H3.
    unfold setattr, modS, bind, getnum, getattr, bind, lift in H5. cbn [dv_dict String.eqb Ascii.eqb Bool.eqb] in H5.
    destruct (dv_dict x "omega") as [v|] eqn:EV; [|discriminate]. destruct (as_num v) as [om|] eqn:EN; [|discriminate]. injection H5 as E3.
    exists om, B. assert (X : forall n, ~ List.In n ["is_data_generated"; "powers"; "transmissions"] -> dv_dict d' n = dv_dict d3 n).
    { intros n Hn. cbn [List.In] in Hn. rewrite E5. cbn [dv_dict]. destruct (String.eqb_spec n "is_data_generated") as [->|_]; [tauto|]. apply O4. cbn [List.In]. tauto. }
    split; [exists v; split; [rewrite X by isnt; rewrite <- E3; exact EV|exact EN]|]. split; rewrite X by isnt; rewrite <- E3; reflexivity. }
  destruct FQ as (om & B & Hom & HB & HQ).
  assert (RQ : ratio (om / 2 / PI) B = ratio (om / (2 * PI)) B) by (f_equal; field; apply PI_neq0). rewrite RQ in HQ. clear RQ.
  assert (TY : dv_dict d' "structure_type" = dv_dict d "structure_type") by (rewrite D2, O2, O1 by isnt; reflexivity).
  assert (T1 : dv_dict d1 "structure_type" = dv_dict d "structure_type") by (apply O1; isnt).
  assert (KT : exists t, dv_dict d "structure_type" = Some (VStr t) /\ List.In t ["two_port"; "three_port"; "ortho_port"]).
  { unfold calc_transmissions in H2. destruct (bind_ok _ _ _ _ _ H2) as (x & t & Ht & _). unfold get_type, bind, getattr in Ht. rewrite T1 in Ht.
    destruct (dv_dict d "structure_type") as [v|] eqn:EV; [|discriminate]. destruct (di_type _ (history_inv _ _ Hd) _ EV) as (t' & -> & Hk & _). exists t'. auto. }
  destruct KT as (t & Ht & Hk). unfold calc_transmissions, get_type, bind, getattr, ret in H2. rewrite T1, Ht in H2.
  assert (HG : forall W, dv_dict d' "W_in" = Some (VNum W) -> forall l,
     snd ((t <- get_type ;;
     if String.eqb t "two_port" then
       l <- getattr "T_lin" ;; l <- lift (as_float l) ;; n <- getattr "T_nl" ;; n <- lift (as_float n) ;; ret [("linear", l); ("nonlinear", n)]
     else if String.eqb t "ortho_port" then
       a1 <- percent "W_right_lin" ;; a2 <- percent "W_top_lin" ;; a3 <- percent "W_right_nl" ;; a4 <- percent "W_top_nl" ;;
       ret [("linear right", a1); ("linear top", a2); ("nonlinear right", a3); ("nonlinear top", a4)]
     else ret []) d') = Ok l ->
     get_stats e d' = (d', Ok ([("input power", Some (1000 * W)%R); ("index shift", Some (rmax (s_M (dv_sim d)) a)); ("Q-factor", ratio (om / (2 * PI)) B); ("bandwidth", Some (B / 10 ^ 9)%R)] ++ l)%list)).
  { intros W HW l Hl. unfold get_stats. unfold getnum at 1, bind, getattr, lift. rewrite HW. cbn [as_num]. unfold getS. rewrite Ha. unfold ret at 1. rewrite EM.
    destruct (Nat.eqb_spec (s_M (dv_sim d)) 0) as [Z|_]; [lia|]. unfold ret at 1. rewrite HQ. cbn [as_float]. unfold getnum at 1, bind, getattr, lift. rewrite HB. cbn [as_num].
    rewrite (Rmult_comm W). unfold get_type, bind, getattr in Hl |- *. rewrite TY, Ht in Hl |- *. unfold ret at 1. unfold ret at 1 in Hl.
    destruct (String.eqb t "two_port").
    - destruct (dv_dict d' "T_lin") as [v|]; [|discriminate]. unfold lift in *. destruct (as_float v) as [q|]; [|discriminate]. destruct (dv_dict d' "T_nl") as [v2|]; [|discriminate]. destruct (as_float v2) as [q2|]; [|discriminate].
      cbn [snd ret] in Hl. injection Hl as <-. reflexivity.
    - destruct (String.eqb t "ortho_port"); [|cbn [snd ret] in Hl; injection Hl as <-; reflexivity].
      assert (PC : forall n, percent n d' = (d', snd (percent n d'))).
      { intro n. unfold percent, getnum, over_W_in, bind, getattr, lift. destruct (dv_dict d' n) as [v|]; [|reflexivity]. destruct (as_num v); [|reflexivity]. rewrite HW. reflexivity. }
      rewrite (PC "W_right_lin") in Hl |- *. destruct (snd (percent "W_right_lin" d')) as [a1|]; [|discriminate].
      rewrite (PC "W_top_lin") in Hl |- *. destruct (snd (percent "W_top_lin" d')) as [a2|]; [|discriminate].
      rewrite (PC "W_right_nl") in Hl |- *. destruct (snd (percent "W_right_nl" d')) as [a3|]; [|discriminate].
      rewrite (PC "W_top_nl") in Hl |- *. destruct (snd (percent "W_top_nl" d')) as [a4|]; [|discriminate].
      cbn [snd ret] in Hl. injection Hl as <-. reflexivity. }
  assert (MX := rmax_is_max _ a HM).
  cbn [List.In] in Hk. destruct Hk as [<-|[<-|[<-|[]]]]; cbn [String.eqb Ascii.eqb Bool.eqb] in H2.
  - apply trans_two_ok in H2 as (W & wl & wn & _ & _ & _ & V1 & V2 & V3 & _). rewrite <- D2 in V1, V2, V3 by isnt.
    exists W, a, (rmax (s_M (dv_sim d)) a), om, B, [("linear", ratio wl W); ("nonlinear", ratio wn W)]. do 5 (split; [assumption|]). split; [|split; [|split]].
    + apply (HG W V1). unfold get_type, bind, getattr, lift, ret. rewrite TY, Ht. cbn [String.eqb Ascii.eqb Bool.eqb]. rewrite V2. cbn [as_float]. rewrite V3. reflexivity.
    + intros _. exists (ratio wl W), (ratio wn W). auto.
    + rewrite Ht. discriminate.
    + rewrite Ht. discriminate.
  - apply trans_three_ok in H2 as (W & tl & bl & tn & bn & _ & _ & _ & _ & _ & V1 & _). rewrite <- D2 in V1 by isnt.
    exists W, a, (rmax (s_M (dv_sim d)) a), om, B, []. do 5 (split; [assumption|]). split; [|split; [|split]].
    + apply (HG W V1). unfold get_type, bind, getattr, lift, ret. rewrite TY, Ht. reflexivity.
    + rewrite Ht. discriminate.
    + reflexivity.
    + rewrite Ht. discriminate.
  - apply trans_ortho_ok in H2 as (W & rl & tl & rn & tn & _ & _ & _ & _ & _ & V1 & VS & _ & V2 & V3 & V4 & V5). rewrite <- D2 in V1, VS, V2, V3, V4, V5 by isnt.
    exists W, a, (rmax (s_M (dv_sim d)) a), om, B, [("linear right", times 100 (ratio rl W)); ("linear top", times 100 (ratio tl W)); ("nonlinear right", times 100 (ratio rn W)); ("nonlinear top", times 100 (ratio tn W))].
    do 5 (split; [assumption|]). split; [|split; [|split]].
    + apply (HG W V1). unfold get_type, percent, getnum, over_W_in, bind, getattr, lift, ret. rewrite TY, Ht. cbn [String.eqb Ascii.eqb Bool.eqb].
      rewrite V2. cbn [as_num]. rewrite V1, V3. cbn [as_num]. rewrite V1, V4. cbn [as_num]. rewrite V1, V5. cbn [as_num]. rewrite V1, !times_ratio. reflexivity.
    + rewrite Ht. discriminate.
    + rewrite Ht. discriminate.
    + intros _. exists (ratio tl W), (ratio rl W), (ratio tn W), (ratio rn W). auto.
Qed.

(** Before the data exist it raises AttributeError: a device whose transmissions were never
    computed has no input power. *)
Theorem C102_no_data : forall e s o so d, Device e s o so = Ok d -> get_stats e d = (d, Raise AttributeError).
Proof.
  intros e s o so d H. unfold Device, setattr, modS, bind, getS, on_sim in H. cbn [dv_sim dv_opt dv_osim dv_dict] in H.
  destruct (solve_fields e false false s) as [s1 [F|]]; [|discriminate]. cbn [dv_sim dv_opt dv_osim dv_dict] in H.
  destruct (solve_fields_nl_default e s1) as [s2 [?|]]; [|discriminate]. injection H as <-. reflexivity.
Qed.

Example C102_met : exists e d d', dev_history e d /\ (0 < s_M (dv_sim d))%nat /\ generate_data e 3 1 1 10 d = (d', Ok tt) /\ dv_dict d "structure_type" = Some (VStr "two_port").
Proof.
  destruct device_example as (e & s & o & d & d1 & d2 & d3 & _ & _ & _ & _ & _ & _ & _ & HD & _ & _ & S2 & HP & HG & H & T & _ & _ & P & X & Y & _).
  assert (R0 : dev_history e d) by (eapply dh_new; exact HD).
  assert (R1 := dh_call e (CallParameters 1 1 [0%Z; 0%Z] 0 2 1) _ R0). cbn [call] in R1. rewrite HP in R1.
  assert (R2 := dh_call e (CallGeometry "two_port" [VNum 1; VNum 6; VNum 3; VNum 8; VNum 0; VNum 1; VInts [0%Z; 0%Z]; VArray (fun _ => 2%R)]) _ R1). cbn [call] in R2. cbn [fst] in R2. rewrite HG in R2.
  exists e, d2, d3. split; [exact R2|]. split; [|auto]. destruct (same_system _ _ S2) as (-> & _). unfold s_M. rewrite X, Y. cbn. lia.
Qed.
