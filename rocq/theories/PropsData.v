(** C91, continued: the two scans stored by generate_data. *)
From Coq Require Import Reals Lra Lia List ZArith Arith Bool String.
From Coquelicot Require Import Coquelicot.
From Verif Require Import Base Linear MCore MSim MFilter MOpt MMode MStruct MDevice MStats Spec PCore PSim POpt PropsStruct PEx PExOpt PMode PropsCore PropsSolve PropsLin PropsIter PropsOpt3 PropsFlux PropsMode PropsScan PropsGrad PropsOpt2 PropsFlat PropsDevice PropsStats.
Import ListNotations.
Local Open Scope string_scope.

(** the optimization and the simulation it refers to are not touched *)
Definition keepo {A} (m : St device A) : Prop := forall d d' r, m d = (d', r) -> dv_opt d' = dv_opt d /\ dv_osim d' = dv_osim d.
Lemma keepo_bind {A B} (m : St device A) (f : A -> St device B) : keepo m -> (forall a, keepo (f a)) -> keepo (bind m f).
Proof.
  intros Hm Hf d d' r H. unfold bind in H. destruct (m d) as [d1 [a|]] eqn:E; destruct (Hm _ _ _ E) as [A1 A2].
  - destruct (Hf _ _ _ _ H) as [B1 B2]. split; congruence.
  - injection H as <- _. auto.
Qed.
Lemma keepo_pure {A} (f : device -> res A) : keepo (fun d => (d, f d)).
Proof. intros d d' r H. injection H as <- _. auto. Qed.
Lemma keepo_setattr n v : keepo (setattr n v).
Proof. intros d d' r H. unfold setattr, modS in H. injection H as <- _. auto. Qed.
Lemma keepo_getattr n : keepo (getattr n).
Proof. intros d d' r H. unfold getattr in H. destruct (dv_dict d n); injection H as <- _; auto. Qed.
Lemma keepo_on_sim {A} (m : St sim A) : keepo (on_sim m).
Proof. intros d d' r H. unfold on_sim in H. destruct (m (dv_sim d)) as [s' x]. injection H as <- _. auto. Qed.
Ltac keepoK := repeat first
  [ apply keepo_setattr | apply keepo_getattr | apply keepo_on_sim | apply keepo_bind; [|intro] | apply keepo_pure ].
Lemma keepo_shift e : keepo (dev_index_shift e).
Proof. unfold dev_index_shift. keepoK. Qed.
Lemma keepo_take : keepo take_W_in.
Proof. unfold take_W_in. apply keepo_bind; [apply keepo_pure|intro d]. destruct (s_W_in (dv_sim d)); keepoK. Qed.
Lemma keepo_trans : keepo calc_transmissions.
Proof.
  unfold calc_transmissions. apply keepo_bind; [keepoK|intro t]. destruct (String.eqb t "two_port"); [|destruct (String.eqb t "three_port"); [|destruct (String.eqb t "ortho_port")]].
  - unfold calc_trans_two. apply keepo_bind; [apply keepo_take|intro]. keepoK.
  - unfold calc_trans_three. apply keepo_bind; [apply keepo_take|intro]. keepoK.
  - unfold calc_trans_ortho. apply keepo_bind; [apply keepo_take|intro]. keepoK.
  - keepoK.
Qed.

(** The frequency scan of generate_data: Nf frequencies, evenly spaced over a band of 1/400 of the
    frequency of the simulation and centred on it; at each one the objective of the design solved
    at that frequency; the bandwidth is the number of samples of the run around the centre that are
    above half of the largest value, times the spacing; the quality factor is the frequency of the
    device over that bandwidth. *)
Theorem C91_frequency_data : forall e d d' Nf Np a b, dev_history e d -> generate_data e Nf Np a b d = (d', Ok tt) ->
  let s := dv_osim d in
  exists fs os B om, dv_dict d' "freqs" = Some (VList fs) /\ dv_dict d' "objs" = Some (VList os) /\ dv_dict d' "FWHM" = Some (VNum B) /\
    (2 <= Nf)%nat /\ List.length fs = Nf /\ List.length os = Nf /\
    (forall i, (i < Nf)%nat ->
       List.nth i fs 0%R = (s_omega s * (1 - 1 / 800 + INR i * (1 / 400 / INR (Nf - 1))) / (2 * PI))%R /\
       fresh_J e (dv_opt d) (at_omega s (2 * PI * List.nth i fs 0%R)) = Ok (List.nth i os 0%R)) /\
    (forall m, PropsOpt3.is_max os m -> above_half os m (Nf / 2) ->
       exists i j, run_around (above_half os m) Nf (Nf / 2) i j /\ B = (INR (j - i) * (s_omega s * (1 / 400) / INR (Nf - 1) / (2 * PI)))%R) /\
    number d' "omega" om /\ dv_dict d' "Q" = Some (VQuot (ratio (om / (2 * PI)) B)).
Proof.
  intros e d d' Nf Np a b Hd H s. destruct (generate_ok _ _ _ _ _ _ _ (history_inv _ _ Hd) H) as (_ & _ & d1 & d2 & d3 & d4 & H1 & H2 & H3 & H4 & E5 & _).
  destruct (keepo_shift _ _ _ _ H1) as [A1 A2]. destruct (keepo_trans _ _ _ H2) as [B1 B2]. destruct (only_power e Np a b _ _ _ H4) as [O4 _].
  assert (X : forall n, ~ List.In n ["is_data_generated"; "powers"; "transmissions"] -> dv_dict d' n = dv_dict d3 n).
  { intros n Hn. cbn [List.In] in Hn. rewrite E5. cbn [dv_dict]. destruct (String.eqb_spec n "is_data_generated") as [->|_]; [tauto|]. apply O4. cbn [List.In]. tauto. }
  unfold freq_scan in H3. destruct (bind_ok _ _ _ _ _ H3) as (x & [[fs os] B] & Hx & H5). clear H3.
  unfold setattr, modS, bind, getnum, getattr, bind, lift in H5. cbn [dv_dict String.eqb Ascii.eqb Bool.eqb] in H5.
  destruct (dv_dict x "omega") as [v|] eqn:EV; [|discriminate]. destruct (as_num v) as [om|] eqn:EN; [|discriminate]. injection H5 as E3.
  unfold on_opt in Hx. destruct (scan_frequency e Nf (1 / 400) (dv_opt d2, dv_osim d2)) as [[o' s'] r] eqn:ES. injection Hx as _ ->.
  assert (EO : dv_opt d2 = dv_opt d) by congruence. assert (EOS : dv_osim d2 = s) by (unfold s; congruence). rewrite EO, EOS in ES. clear EO EOS.
  destruct (C50_scan_values_and_width_partial _ _ _ _ _ _ _ _ _ ES) as (N2 & L1 & L2 & F1 & F2 & W).
  exists fs, os, B, om. do 3 (split; [rewrite X by isnt; rewrite <- E3; reflexivity|]). do 3 (split; [assumption|]). split; [|split; [|split]].
  - intros i Hi. split; [rewrite (F1 i Hi); do 2 f_equal; lra|exact (F2 i Hi)].
  - intros m Hm Hc. destruct (W m Hm) as (n & -> & W1 & _). destruct (W1 Hc) as (i & j & HR & ->). exists i, j. auto.
  - exists v. split; [rewrite X by isnt; rewrite <- E3; exact EV|exact EN].
  - rewrite X by isnt. rewrite <- E3. cbn [dv_dict String.eqb Ascii.eqb Bool.eqb]. do 3 f_equal. field. apply PI_neq0.
Qed.

(** where the device measures the power of its outputs: (axis, centre, half width) *)
Definition out_probes (t : string) (s : sim) (n0 n1 : Z) (l dd H dl : R) : list (string * (Z * Z) * Z) :=
  let cx := (- (n0 + py_int (l / 2 / dl)))%Z in let cy := (- (n1 + py_int (l / 2 / dl)))%Z in
  let mx := Z.of_nat (s_Nx s / 2) in let my := Z.of_nat (s_Ny s / 2) in
  let h := py_int (dd / 2 / dl) in let w := py_int (H / 2 / dl) in
  if String.eqb t "two_port" then [("x", (cx, my), my)]
  else if String.eqb t "three_port" then [("x", (cx, my + h)%Z, w); ("x", (cx, my - h)%Z, w)]
  else [("x", (cx, my), w); ("y", (mx, cy), w)].
Lemma args_values d t n0 n1 rest l dd H dl args : dev_inv d -> has d "ny" -> known_type t -> scan_args t = Some args ->
  dv_dict d "NPML" = Some (VInts (n0 :: n1 :: rest)) -> number d "l" l -> number d "dl" dl -> dl <> 0%R ->
  (t = "three_port" -> number d "d" dd) -> (t <> "two_port" -> number d "H" H) ->
  List.map (fun f => snd (f d)) args = List.map Ok (out_probes t (dv_sim d) n0 n1 l dd H dl).
Proof.
  intros I Hny Hk Ha HN Hl Hdl Z0 Hdd HH. destruct (di_ny _ I Hny) as (_ & _ & ENy & Enx & Eny).
  assert (F0 := far_val 0 d _ n0 l dl HN eq_refl Hl Hdl). assert (F1 := far_val 1 d _ n1 l dl HN eq_refl Hl Hdl).
  destruct (Req_EM_T dl 0) as [Z|EZ] eqn:ED; [contradiction|].
  assert (N0 : (- n0 - py_int (l / 2 / dl) = - (n0 + py_int (l / 2 / dl)))%Z) by lia. assert (N1 : (- n1 - py_int (l / 2 / dl) = - (n1 + py_int (l / 2 / dl)))%Z) by lia.
  rewrite N0 in F0. rewrite N1 in F1.
  assert (GY : getint "ny" d = (d, Ok (Z.of_nat (s_Ny (dv_sim d) / 2)))) by (unfold getint, bind, getattr, lift; rewrite Eny; reflexivity).
  assert (GX : getint "nx" d = (d, Ok (Z.of_nat (s_Nx (dv_sim d) / 2)))) by (unfold getint, bind, getattr, lift; rewrite Enx; reflexivity).
  cbn [List.In known_type] in Hk. unfold known_type in Hk. cbn [List.In] in Hk. destruct Hk as [<-|[<-|[<-|[]]]]; cbn in Ha; injection Ha as <-; unfold out_probes; cbn [String.eqb Ascii.eqb Bool.eqb List.map].
  - unfold args_two_out, bind. rewrite F0, GY. unfold half_Ny, getnum, bind, getattr, lift, ret. rewrite ENy. cbn [as_num]. rewrite py_int_half. reflexivity.
  - assert (P1 := pixels_val "d" 2 d dd dl (Hdd eq_refl) Hdl). assert (P2 := pixels_val "H" 2 d H dl (HH ltac:(discriminate)) Hdl). rewrite ED in P1, P2.
    unfold args_three, bind. rewrite F0, GY, P1, P2. reflexivity.
  - assert (P2 := pixels_val "H" 2 d H dl (HH ltac:(discriminate)) Hdl). rewrite ED in P2.
    unfold args_ortho_right, args_ortho_top, bind. rewrite F0, GY, GX, P2, F1, P2. reflexivity.
Qed.
Lemma first_raises d t n0 rest l dl args : known_type t -> scan_args t = Some args ->
  dv_dict d "NPML" = Some (VInts (n0 :: rest)) -> number d "l" l -> number d "dl" dl -> dl = 0%R ->
  exists f g, args = f :: g /\ exists d1 x, f d = (d1, Raise x).
Proof.
  intros Hk Ha HN Hl Hdl Z0. assert (F0 := far_val 0 d _ n0 l dl HN eq_refl Hl Hdl). destruct (Req_EM_T dl 0) as [_|N]; [|contradiction].
  unfold known_type in Hk. cbn [List.In] in Hk. destruct Hk as [<-|[<-|[<-|[]]]]; cbn in Ha; injection Ha as <-; eexists _, _; (split; [reflexivity|]); eexists _, _.
  - unfold args_two_out, bind. rewrite F0. reflexivity.
  - unfold args_three, bind. rewrite F0. reflexivity.
  - unfold args_ortho_right, bind. rewrite F0. reflexivity.
Qed.
Lemma outputs_placed d args : forall L s outs, List.map (fun f => snd (f d)) args = List.map Ok L -> probe_outputs (List.map (probe_of d) args) s outs ->
  forall p a, List.nth_error L p = Some a -> flux_probe (fst (fst a)) (snd (fst a)) (snd a) true s = Ok (List.nth p outs 0%R).
Proof.
  induction args as [|f args IH]; intros L s outs E P p a HL.
  - destruct L; [destruct p; discriminate|discriminate].
  - destruct L as [|b L]; [discriminate|]. cbn [List.map] in E, P. injection E as E1 E2. inversion P as [|? ? ? s' W l HP HT]; subst.
    unfold probe_of in HP. rewrite E1 in HP. injection HP as <- HW. destruct p as [|p]; cbn [List.nth_error List.nth] in *; [injection HL as <-; exact HW|].
    exact (IH _ _ _ E2 HT _ _ HL).
Qed.

(** The power scan of generate_data: Np scales of the first mode, evenly spaced in their logarithm;
    at each one the input power of the mode, and for every output of the structure the power of
    the nonlinear field through that output over the input power. *)
Theorem C91_power_data : forall e d d' Nf Np a b t n0 n1 rest l dd H dl, dev_history e d ->
  dv_dict d "structure_type" = Some (VStr t) -> dv_dict d "NPML" = Some (VInts (n0 :: n1 :: rest)) -> number d "l" l -> number d "dl" dl ->
  (t = "three_port" -> number d "d" dd) -> (t <> "two_port" -> number d "H" H) ->
  generate_data e Nf Np a b d = (d', Ok tt) ->
  let probes := out_probes t (dv_sim d) n0 n1 l dd H dl in
  exists pw tr, dv_dict d' "powers" = Some (VList pw) /\ dv_dict d' "transmissions" = Some (VTable tr) /\
    List.length pw = Np /\ List.length tr = List.length probes /\ (forall p, (p < List.length probes)%nat -> List.length (List.nth p tr []) = Np) /\
    forall k, (k < Np)%nat -> exists W s2 s3, point_of e "hybrid" (scan_scale a b Np k) (dv_osim d) W s2 s3 /\ List.nth k pw 0%R = W /\
      forall p ax c w, List.nth_error probes p = Some (ax, c, w) ->
        exists P, flux_probe ax c w true s3 = Ok P /\ List.nth k (List.nth p tr []) None = ratio P W.
Proof.
  intros e d d' Nf Np a b t n0 n1 rest l dd H0 dl Hd Ht HN Hl Hdl Hdd HH H probes. assert (I := history_inv _ _ Hd).
  destruct (generate_ok _ _ _ _ _ _ _ I H) as (_ & _ & d1 & d2 & d3 & d4 & H1 & H2 & H3 & H4 & E5 & _).
  assert (I1 := inv_shift _ _ _ _ H1 I). assert (I2 := inv_trans _ _ _ H2 I1). assert (I3 := inv_freq _ _ _ _ _ H3 I2).
  destruct (keepo_shift _ _ _ _ H1) as [_ A2]. destruct (keepo_trans _ _ _ H2) as [_ B2].
  destruct (only_shift e _ _ _ H1) as [O1 _]. destruct (only_trans _ _ _ H2) as [O2 _]. destruct (only_freq e Nf _ _ _ H3) as [O3 _].
  assert (D : forall n, ~ List.In n (["index_shift"; "freqs"; "objs"; "FWHM"; "Q"] ++ trans_names)%list -> dv_dict d3 n = dv_dict d n).
  { intros n Hn. rewrite List.in_app_iff in Hn. cbn [List.In] in Hn. rewrite O3 by (cbn [List.In]; tauto). rewrite O2 by tauto. apply O1. cbn [List.In]. tauto. }
  assert (K : same_problem (dv_sim d) (dv_sim d3)).
  { eapply same_trans; [exact (keeps_shift _ _ _ _ H1)|]. eapply same_trans; [exact (keeps_trans _ _ _ H2)|exact (keeps_freq _ _ _ _ _ H3)]. }
  assert (NM : forall n x, ~ List.In n (["index_shift"; "freqs"; "objs"; "FWHM"; "Q"] ++ trans_names)%list -> number d n x -> number d3 n x).
  { intros n x Hn (v & E & V). exists v. rewrite (D _ Hn). auto. }
  destruct (di_type _ I _ Ht) as (t' & E' & Hk & _). injection E' as <-.
  assert (T1 : dv_dict d1 "structure_type" = Some (VStr t)) by (rewrite O1 by isnt; exact Ht).
  assert (Ny1 : has d1 "ny") by exact (proj1 (trans_ok _ _ _ T1 Hk H2)).
  assert (Ny3 : has d3 "ny") by (unfold has in *; rewrite D by isnt; rewrite <- O1 by isnt; exact Ny1).
  assert (OS : dv_osim d3 = dv_osim d).
  { unfold freq_scan in H3. destruct (bind_ok _ _ _ _ _ H3) as (x & [[fs os] B] & Hx & H5).
    unfold on_opt in Hx. destruct (scan_frequency e Nf (1 / 400) (dv_opt d2, dv_osim d2)) as [[o' s'] r] eqn:ES. injection Hx as Hx ->.
    apply C51_frequency_scan_keeps_simulation in ES. destruct ES as (-> & _).
    assert (Q : dv_osim x = dv_osim d2) by (rewrite <- Hx; reflexivity).
    assert (KK : keepo (setattr "freqs" (VList fs) ;;; setattr "objs" (VList os) ;;; setattr "FWHM" (VNum B) ;;; om <- getnum "omega" ;; setattr "Q" (VQuot (ratio (om / 2 / PI) B)))) by keepoK.
    destruct (KK _ _ _ H5) as [_ Q2]. congruence. }
  unfold power_scan in H4. destruct (bind_ok _ _ _ _ _ H4) as (x & ty & Hx & H5). clear H4.
  unfold get_type, bind, getattr, ret in Hx. rewrite D, Ht in Hx by isnt. injection Hx as <- <-.
  destruct (scan_args t) as [args|] eqn:EA; [|exfalso; unfold known_type in Hk; cbn [List.In] in Hk; repeat destruct Hk as [<-|Hk]; try contradiction; discriminate].
  unfold bind at 1, getS in H5. destruct (bind_ok _ _ _ _ _ H5) as (x & [pw tr] & H6 & H7). clear H5.
  unfold on_opt in H6. destruct (scan_power e (Some (List.map (probe_of d3) args)) Np a b "hybrid" (dv_opt d3, dv_osim d3)) as [[o' s'] r] eqn:E. injection H6 as <- ->.
  unfold bind, setattr, modS in H7. injection H7 as <-. rewrite OS in E.
  destruct (C52_one_transmission_per_probe_and_power _ _ _ _ _ _ _ _ _ _ _ E) as (L1 & L2 & L3 & V).
  assert (LA : List.length args = List.length probes).
  { unfold probes, out_probes. unfold known_type in Hk; cbn [List.In] in Hk; repeat destruct Hk as [<-|Hk]; try contradiction; cbn in EA; injection EA as <-; reflexivity. }
  rewrite List.map_length, LA in L2. rewrite List.map_length, LA in L3.
  exists pw, tr. do 2 (split; [rewrite E5; reflexivity|]). do 3 (split; [assumption|]).
  intros k Hk'. destruct (V k Hk') as (W & s2 & s3 & outs & PO & PR & EW & VT). exists W, s2, s3. split; [exact PO|]. split; [exact EW|].
  destruct (Req_EM_T dl 0) as [Z|Z].
  { exfalso. destruct (first_raises d3 t n0 (n1 :: rest) l dl args Hk EA) as (f & g & -> & d5 & x & F); [rewrite D by isnt; exact HN|apply NM; [isnt|exact Hl]|apply NM; [isnt|exact Hdl]|exact Z|].
    cbn [List.map] in PR. inversion PR as [|? ? ? ? ? ? HP _]; subst. unfold probe_of in HP. rewrite F in HP. discriminate. }
  assert (AV := args_values d3 t n0 n1 rest l dd H0 dl args I3 Ny3 Hk EA ltac:(rewrite D by isnt; exact HN) (NM "l" l ltac:(isnt) Hl) (NM "dl" dl ltac:(isnt) Hdl) Z
    (fun q => NM "d" dd ltac:(isnt) (Hdd q)) (fun q => NM "H" H0 ltac:(isnt) (HH q))).
  assert (EP : out_probes t (dv_sim d3) n0 n1 l dd H0 dl = probes).
  { unfold probes, out_probes. destruct K as (_ & _ & _ & _ & _ & X & Y & _). rewrite X, Y. reflexivity. }
  rewrite EP in AV. intros p ax c w Hp. exists (List.nth p outs 0%R). split; [exact (outputs_placed _ _ _ _ _ AV PR _ _ Hp)|].
  assert (Hpl : (p < List.length (List.map (probe_of d3) args))%nat) by (rewrite List.map_length, LA; apply List.nth_error_Some; rewrite Hp; discriminate).
  destruct (VT p Hpl) as [V1 V2]. unfold ratio. destruct (Req_EM_T W 0) as [ZW|ZW]; [exact (V2 ZW)|exact (V1 ZW)].
Qed.

Example C91_scan_data_met : exists e d d' n0 n1 l dl, dev_history e d /\ dv_dict d "structure_type" = Some (VStr "two_port") /\
  dv_dict d "NPML" = Some (VInts [n0; n1]) /\ number d "l" l /\ number d "dl" dl /\ generate_data e 3 1 1 10 d = (d', Ok tt).
Proof.
  destruct device_example as (e & s & o & d & d1 & d2 & d3 & _ & _ & _ & _ & _ & _ & _ & HD & _ & _ & S2 & HP & HG & H & T & _ & _ & P & X & Y & _).
  assert (R0 : dev_history e d) by (eapply dh_new; exact HD).
  assert (R1 := dh_call e (CallParameters 1 1 [0%Z; 0%Z] 0 2 1) _ R0). cbn [call] in R1. rewrite HP in R1.
  assert (R2 := dh_call e (CallGeometry "two_port" [VNum 1; VNum 6; VNum 3; VNum 8; VNum 0; VNum 1; VInts [0%Z; 0%Z]; VArray (fun _ => 2%R)]) _ R1). cbn [call] in R2. cbn [fst] in R2. rewrite HG in R2.
  assert (G : dv_dict d2 "NPML" = Some (VInts [0%Z; 0%Z]) /\ dv_dict d2 "l" = Some (VNum 8) /\ dv_dict d2 "dl" = Some (VNum 1)).
  { clear -HG. revert HG. unfold set_geometry, setattr, modS, bind, ret. cbn. intro HG. injection HG as <-. cbn. auto. }
  destruct G as (G1 & G2 & G3). exists e, d2, d3, 0%Z, 0%Z, 8%R, 1%R. do 3 (split; [assumption|]). split; [exists (VNum 8); auto|]. split; [exists (VNum 1); auto|exact H].
Qed.
