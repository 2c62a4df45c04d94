(** C91, C95, C96: the class Device of data/device_saver.py. *)
From Coq Require Import Reals Lra Lia List ZArith Arith Bool String.
From Coquelicot Require Import Coquelicot.
From Verif Require Import Base Linear MCore MSim MFilter MOpt MMode MStruct MDevice Spec PCore PSim POpt PropsStruct PEx PExOpt PMode PropsCore PropsSolve PropsLin PropsIter PropsOpt3 PropsFlux PropsMode PropsScan PropsGrad PropsOpt2 PropsFlat.
Import ListNotations.
Local Open Scope string_scope.

(* ------------------------------------------------------------------ *)
(** ** Specification *)

(** a method call on a device, by the user *)
Inductive dev_call :=
| CallParameters (lambda0 dl : R) (NPML : list Z) (chi3 eps_m source_amp : R)
| CallGeometry (structure_type : string) (params : list pyval)
| CallGenerate (Nf Np : nat) (s_min s_max : R)
| CallShift | CallTransmissions | CallFreq (Nf : nat) | CallPower (Np : nat) (s_min s_max : R).
Definition call (e : env) (c : dev_call) : St device unit :=
  match c with
  | CallParameters a b n x y z => set_parameters a b n x y z
  | CallGeometry t p => set_geometry t p
  | CallGenerate Nf Np a b => generate_data e Nf Np a b
  | CallShift => dev_index_shift e
  | CallTransmissions => calc_transmissions
  | CallFreq Nf => freq_scan e Nf
  | CallPower Np a b => power_scan e Np a b
  end.
(** a device after any sequence of calls, whether they raised or not *)
Inductive dev_history (e : env) : device -> Prop :=
| dh_new s o so d : Device e s o so = Ok d -> dev_history e d
| dh_call c d : dev_history e d -> dev_history e (fst (call e c d)).

(** hasattr(device, name) *)
Definition has (d : device) (name : string) : Prop := dv_dict d name <> None.
Definition flag (d : device) (name : string) : Prop := dv_dict d name = Some (VBool true).

Definition parameter_names : list string :=
  ["lambda0"; "omega"; "dl"; "NPML"; "chi3"; "eps_m"; "source_amp"; "grids_per_lamda"; "Nx"; "Ny"; "nx"; "ny"; "x_range"; "y_range"].
Definition data_names : list string :=
  ["index_shift"; "W_in"; "freqs"; "objs"; "FWHM"; "Q"; "powers"; "transmissions"].
(** the arguments of the three structures, as documented in structures.py *)
Definition arguments_of (t : string) : list string :=
  if String.eqb t "three_port" then ["L"; "H"; "w"; "d"; "l"; "spc"; "dl"; "NPML"; "eps_start"]
  else if String.eqb t "two_port" then ["L"; "H"; "w"; "l"; "spc"; "dl"; "NPML"; "eps_start"]
  else ["L"; "L2"; "H"; "H2"; "w"; "l"; "dl"; "NPML"; "eps_start"].

(* ------------------------------------------------------------------ *)
(** ** What a method may set *)

(** m sets no attribute outside K, and removes none *)
Definition only {A} (K : list string) (m : St device A) : Prop :=
  forall d d' r, m d = (d', r) -> (forall k, ~ List.In k K -> dv_dict d' k = dv_dict d k) /\ (forall k, has d k -> has d' k).
(** on success m has set every attribute of K *)
Definition gives {A} (K : list string) (m : St device A) : Prop :=
  forall d d' a, m d = (d', Ok a) -> forall k, List.In k K -> has d' k.

Lemma only_bind {A B} K (m : St device A) (f : A -> St device B) : only K m -> (forall a, only K (f a)) -> only K (bind m f).
Proof.
  intros Hm Hf d d' r H. unfold bind in H. destruct (m d) as [d1 [a|]] eqn:E.
  - destruct (Hm _ _ _ E) as [A1 A2]. destruct (Hf _ _ _ _ H) as [B1 B2]. split; [intros k Hk; rewrite B1, A1 by assumption; reflexivity|auto].
  - injection H as <- <-. exact (Hm _ _ _ E).
Qed.
Lemma only_ret {A} K (a : A) : only K (ret a).
Proof. intros d d' r H. injection H as <- _. auto. Qed.
Lemma only_raise {A} K x : only K (@raise device A x).
Proof. intros d d' r H. injection H as <- _. auto. Qed.
Lemma only_lift {A} K (x : res A) : only K (lift x).
Proof. intros d d' r H. injection H as <- _. auto. Qed.
Lemma only_getS K : only K (@getS device).
Proof. intros d d' r H. injection H as <- _. auto. Qed.
Lemma only_getattr K n : only K (getattr n).
Proof. intros d d' r H. unfold getattr in H. destruct (dv_dict d n); injection H as <- _; auto. Qed.
Lemma only_getnum K n : only K (getnum n).
Proof. apply only_bind; [apply only_getattr|intro; apply only_lift]. Qed.
Lemma only_getint K n : only K (getint n).
Proof. apply only_bind; [apply only_getattr|intro; apply only_lift]. Qed.
Lemma only_getitem K n i : only K (getitem n i).
Proof. apply only_bind; [apply only_getattr|intro; apply only_lift]. Qed.
Lemma only_get_type K : only K get_type.
Proof. apply only_bind; [apply only_getattr|intro; apply only_ret]. Qed.
Lemma only_on_sim {A} K (m : St sim A) : only K (on_sim m).
Proof. intros d d' r H. unfold on_sim in H. destruct (m (dv_sim d)) as [s' x]. injection H as <- _. auto. Qed.
Lemma only_on_opt {A} K (m : St (opt * sim) A) : only K (on_opt m).
Proof. intros d d' r H. unfold on_opt in H. destruct (m (dv_opt d, dv_osim d)) as [[o' s'] x]. injection H as <- _. auto. Qed.
Lemma only_setattr K n v : List.In n K -> only K (setattr n v).
Proof.
  intros HK d d' r H. unfold setattr, modS in H. injection H as <- _. unfold has. cbn [dv_dict]. split.
  - intros k Hk. destruct (String.eqb_spec k n) as [->|]; [contradiction|reflexivity].
  - intros k Hk. destruct (String.eqb k n); [discriminate|exact Hk].
Qed.
Lemma only_weaken {A} K K' (m : St device A) : (forall k, List.In k K -> List.In k K') -> only K m -> only K' m.
Proof. intros HK Hm d d' r H. destruct (Hm _ _ _ H) as [A1 A2]. split; [intros k Hk; apply A1; auto|exact A2]. Qed.
Lemma only_if {A} K (b : bool) (m n : St device A) : only K m -> only K n -> only K (if b then m else n).
Proof. destruct b; auto. Qed.

Ltac inK := cbn [List.In]; repeat (try (left; reflexivity); right).
Ltac onlyK := repeat first
  [ apply only_bind; [|intro] | apply only_ret | apply only_raise | apply only_lift | apply only_getS | apply only_getattr | apply only_getnum
  | apply only_getint | apply only_getitem | apply only_get_type | apply only_on_sim | apply only_on_opt | apply only_setattr; solve [inK] ].

Lemma only_pixels K a k : only K (pixels a k). Proof. unfold pixels. onlyK. Qed.
Lemma only_pixels23 K a : only K (pixels23 a). Proof. unfold pixels23. onlyK. Qed.
Lemma only_far K i : only K (far i). Proof. unfold far. onlyK. Qed.
Lemma only_half K : only K half_Ny. Proof. unfold half_Ny. onlyK. Qed.
Lemma only_two_out K : only K args_two_out. Proof. unfold args_two_out. onlyK. Qed.
Lemma only_two_in K : only K args_two_in. Proof. unfold args_two_in. onlyK. Qed.
Lemma only_three K b : only K (args_three b). Proof. unfold args_three. onlyK. Qed.
Lemma only_right K : only K args_ortho_right. Proof. unfold args_ortho_right. onlyK. Qed.
Lemma only_top K : only K args_ortho_top. Proof. unfold args_ortho_top. onlyK. Qed.
Lemma only_probe K n a nl : List.In n K -> only K a -> only K (probe_to n a nl).
Proof. intros Hn Ha. unfold probe_to. apply only_bind; [exact Ha|intro]. apply only_bind; [apply only_getS|intro]. apply only_bind; [apply only_lift|intro]. apply only_bind; [apply only_setattr; exact Hn|intro; apply only_ret]. Qed.
Lemma only_take K : List.In "W_in" K -> only K take_W_in.
Proof. intro H. unfold take_W_in. apply only_bind; [apply only_getS|intro d]. destruct (s_W_in (dv_sim d)); [apply only_raise|apply only_setattr, H|apply only_setattr, H]. Qed.
Lemma only_over K w : only K (over_W_in w). Proof. unfold over_W_in. onlyK. Qed.

Definition trans_names : list string :=
  ["W_in"; "W_out_lin"; "W_in_lin"; "T_lin"; "W_out_nl"; "W_in_nl"; "T_nl"; "W_top_lin"; "W_bot_lin"; "W_top_nl"; "W_bot_nl"; "W_right_lin"; "W_right_nl"; "S"].
Ltac onlyT := repeat first
  [ apply only_take; solve [inK] | apply only_probe; [solve [inK]|] | apply only_over | apply only_two_out | apply only_two_in | apply only_three
  | apply only_right | apply only_top | apply only_setattr; solve [inK] | apply only_bind; [|intro] ].
Lemma only_trans : only trans_names calc_transmissions.
Proof.
  unfold calc_transmissions. apply only_bind; [apply only_get_type|intro t].
  apply only_if; [|apply only_if; [|apply only_if; [|apply only_ret]]].
  - unfold calc_trans_two. onlyT.
  - unfold calc_trans_three. onlyT.
  - unfold calc_trans_ortho. onlyT.
Qed.
Lemma only_shift e : only ["index_shift"] (dev_index_shift e). Proof. unfold dev_index_shift. onlyK. Qed.
Lemma only_freq e Nf : only ["freqs"; "objs"; "FWHM"; "Q"] (freq_scan e Nf).
Proof. unfold freq_scan. apply only_bind; [apply only_on_opt|]. intros [[fs os] fw]. onlyK. Qed.
Lemma only_power e Np a b : only ["powers"; "transmissions"] (power_scan e Np a b).
Proof. unfold power_scan. apply only_bind; [apply only_get_type|intro t]. destruct (scan_args t) as [l|]; [|apply only_ret]. onlyK. Qed.

(* ------------------------------------------------------------------ *)
(** ** set_parameters and set_geometry, in one piece *)

Lemma has_setattr n v d d' r : setattr n v d = (d', r) -> has d' n.
Proof. unfold setattr, modS. intro H. injection H as <- _. unfold has. cbn [dv_dict]. rewrite String.eqb_refl. discriminate. Qed.
Lemma bind_ok {A B} (m : St device A) (f : A -> St device B) d d' b :
  bind m f d = (d', Ok b) -> exists d1 a, m d = (d1, Ok a) /\ f a d1 = (d', Ok b).
Proof. unfold bind. destruct (m d) as [d1 [a|x]]; [exists d1, a; auto|discriminate]. Qed.
Lemma gives_later {A B} K K' (m : St device A) (f : A -> St device B) : gives K m -> (forall a, only K' (f a)) -> gives K (bind m f).
Proof. intros Hm Hf d d' b H k Hk. destruct (bind_ok _ _ _ _ _ H) as (d1 & a & H1 & H2). apply (proj2 (Hf a _ _ _ H2)). exact (Hm _ _ _ H1 k Hk). Qed.
Lemma gives_tail {A B} K (m : St device A) (f : A -> St device B) : (forall a, gives K (f a)) -> gives K (bind m f).
Proof. intros Hf d d' b H k Hk. destruct (bind_ok _ _ _ _ _ H) as (d1 & a & H1 & H2). exact (Hf a _ _ _ H2 k Hk). Qed.
Lemma gives_set n v : gives [n] (setattr n v).
Proof. intros d d' a H k [<-|[]]. exact (has_setattr _ _ _ _ _ H). Qed.
Lemma gives_cons {A} n K (m : St device A) : gives [n] m -> gives K m -> gives (n :: K) m.
Proof. intros H1 H2 d d' a H k [<-|Hk]; [apply (H1 _ _ _ H); left; reflexivity|exact (H2 _ _ _ H k Hk)]. Qed.
Lemma gives_nil {A} (m : St device A) : gives [] m.
Proof. intros d d' a H k []. Qed.

Definition param_keys : list string := parameter_names ++ ["are_parameters_set"].

(** set_parameters: on success every attribute is stored; when it raises, the flag, the
    sizes and the ranges are as before *)
Lemma parameters_cases lambda0 dl NPML chi3 eps_m amp d d' r : set_parameters lambda0 dl NPML chi3 eps_m amp d = (d', r) ->
  dv_sim d' = dv_sim d /\ dv_opt d' = dv_opt d /\ dv_osim d' = dv_osim d /\
  ((exists L0 f, dv_dict d "L0" = Some L0 /\ as_num L0 = Ok f /\ lambda0 <> 0%R /\ dl <> 0%R /\ f <> 0%R /\ r = Ok tt /\
     (exists v, dv_dict d "Ez" = Some (VField (Some v))) /\
     dv_dict d' = (fun k =>
       if String.eqb k "are_parameters_set" then Some (VBool true)
       else if String.eqb k "y_range" then Some (VList (dev_range (s_Ny (dv_sim d)) dl))
       else if String.eqb k "x_range" then Some (VList (dev_range (s_Nx (dv_sim d)) dl))
       else if String.eqb k "ny" then Some (VInt (Z.of_nat (s_Ny (dv_sim d) / 2)))
       else if String.eqb k "nx" then Some (VInt (Z.of_nat (s_Nx (dv_sim d) / 2)))
       else if String.eqb k "Ny" then Some (VInt (Z.of_nat (s_Ny (dv_sim d))))
       else if String.eqb k "Nx" then Some (VInt (Z.of_nat (s_Nx (dv_sim d))))
       else if String.eqb k "grids_per_lamda" then Some (VNum (lambda0 / dl / f)%R)
       else if String.eqb k "source_amp" then Some (VNum amp)
       else if String.eqb k "eps_m" then Some (VNum eps_m)
       else if String.eqb k "chi3" then Some (VNum chi3)
       else if String.eqb k "NPML" then Some (VInts NPML)
       else if String.eqb k "dl" then Some (VNum dl)
       else if String.eqb k "omega" then Some (VNum (2 * PI * (3 * 10 ^ 8) / lambda0)%R)
       else if String.eqb k "lambda0" then Some (VNum lambda0)
       else dv_dict d k)) \/
   ((exists x, r = Raise x) /\
    forall k, ~ List.In k ["lambda0"; "omega"; "dl"; "NPML"; "chi3"; "eps_m"; "source_amp"; "grids_per_lamda"] -> dv_dict d' k = dv_dict d k)).
Proof.
  unfold set_parameters, py_div.
  destruct (Req_EM_T lambda0 0) as [El|El]; [|destruct (Req_EM_T dl 0) as [Ed|Ed]];
    unfold bind, setattr, modS, getnum, getattr, bind, lift, getS, ret, raise; cbv beta iota zeta;
    cbn [dv_dict dv_sim dv_opt dv_osim String.eqb Ascii.eqb Bool.eqb].
  1,2: intro H; injection H as <- <-; cbn [dv_dict dv_sim dv_opt dv_osim]; repeat split; right; (split; [eexists; reflexivity|]);
    intros k Hk; repeat (match goal with |- context [String.eqb k ?n] => destruct (String.eqb_spec k n) as [->|] end; [exfalso; apply Hk; inK|]); reflexivity.
  destruct (dv_dict d "L0") as [L0|] eqn:EL; [destruct (as_num L0) as [f|] eqn:Ef; [destruct (Req_EM_T f 0) as [E0|E0]; [|cbn [dv_dict dv_sim dv_opt dv_osim String.eqb Ascii.eqb Bool.eqb]; destruct (dv_dict d "Ez") as [ez|] eqn:EE; [destruct ez as [| | | | | | | | |o|] |]; [| | | | | | | | |destruct o as [v|]|  |]]|]|].
  all: intro H; injection H as <- <-; cbn [dv_dict dv_sim dv_opt dv_osim]; repeat (split; [reflexivity|]).
  all: try (right; (split; [eexists; reflexivity|]);
    intros k Hk; repeat (match goal with |- context [String.eqb k ?n] => destruct (String.eqb_spec k n) as [->|] end; [exfalso; apply Hk; inK|]); reflexivity).
  left. exists L0, f. split; [reflexivity|]. split; [first [reflexivity|exact Ef]|]. split; [assumption|]. split; [assumption|]. split; [assumption|]. split; [reflexivity|]. split; [eexists; reflexivity|]. reflexivity.
Qed.

Lemma unpack_spec names : List.NoDup names -> forall vs k, unpack names vs = Some k ->
  List.length vs = List.length names /\
  forall d, exists d', k d = (d', Ok tt) /\ dv_sim d' = dv_sim d /\ dv_opt d' = dv_opt d /\ dv_osim d' = dv_osim d /\
    (forall i n, List.nth_error names i = Some n -> dv_dict d' n = List.nth_error vs i) /\
    (forall n, ~ List.In n names -> dv_dict d' n = dv_dict d n).
Proof.
  induction 1 as [|n ns Hn Hnd IH]; intros vs k H; destruct vs as [|v vs]; cbn [unpack] in H; try discriminate.
  - injection H as <-. split; [reflexivity|]. intro d. exists d. repeat split; try reflexivity. intros [|i] m Hm; discriminate.
  - destruct (unpack ns vs) as [k1|] eqn:E; [|discriminate]. injection H as <-. destruct (IH _ _ E) as [IL IS].
    split; [cbn; rewrite IL; reflexivity|]. intro d.
    destruct (IS (mkDev (dv_sim d) (dv_opt d) (dv_osim d) (fun k => if String.eqb k n then Some v else dv_dict d k))) as (d' & A & B & C & D & F & G).
    exists d'. unfold bind, setattr, modS. rewrite A. repeat (split; [assumption || reflexivity|]). split.
    + intros [|i] m Hm; cbn [List.nth_error] in *; [|exact (F _ _ Hm)]. injection Hm as <-. rewrite (G n Hn). cbn [dv_dict]. rewrite String.eqb_refl. reflexivity.
    + intros m Hm. rewrite G by (intro; apply Hm; right; assumption). cbn [dv_dict]. destruct (String.eqb_spec m n) as [->|]; [exfalso; apply Hm; left; reflexivity|reflexivity].
Qed.
Lemma unpack_length names : forall vs, unpack names vs = None -> List.length vs <> List.length names.
Proof.
  induction names as [|n ns IH]; intros [|v vs] H; cbn [unpack] in H; try discriminate.
  destruct (unpack ns vs) eqn:E; [discriminate|]. cbn. intro Hl. injection Hl. exact (IH _ E).
Qed.

Lemma geometry_known t names : geometry_names t = Some names ->
  names = arguments_of t /\ List.In t ["two_port"; "three_port"; "ortho_port"] /\ List.NoDup names /\ ~ List.In "structure_type" names /\ ~ List.In "is_geometry_set" names.
Proof.
  unfold geometry_names, arguments_of. intro H.
  assert (NI : forall n (l : list string), (if List.in_dec string_dec n l then true else false) = false -> ~ List.In n l) by (intros n l; destruct (List.in_dec string_dec n l); [discriminate|auto]).
  destruct (String.eqb_spec t "three_port") as [->|]; [injection H as <-|destruct (String.eqb_spec t "two_port") as [->|]; [injection H as <-|destruct (String.eqb_spec t "ortho_port") as [->|]; [injection H as <-|discriminate]]].
  all: split; [reflexivity|]; split; [inK|]; split; [repeat (constructor; [apply NI; reflexivity|]); constructor|]; split; apply NI; reflexivity.
Qed.

(** set_geometry: all or nothing *)
Lemma geometry_cases t ps d d' r : set_geometry t ps d = (d', r) ->
  dv_sim d' = dv_sim d /\ dv_opt d' = dv_opt d /\ dv_osim d' = dv_osim d /\
  ((List.In t ["two_port"; "three_port"; "ortho_port"] /\ List.length ps = List.length (arguments_of t) /\ r = Ok tt /\
    (forall i n, List.nth_error (arguments_of t) i = Some n -> dv_dict d' n = List.nth_error ps i) /\
    dv_dict d' "structure_type" = Some (VStr t) /\ dv_dict d' "is_geometry_set" = Some (VBool true) /\
    (forall n, ~ List.In n ("structure_type" :: "is_geometry_set" :: arguments_of t) -> dv_dict d' n = dv_dict d n)) \/
   (~ (List.In t ["two_port"; "three_port"; "ortho_port"] /\ List.length ps = List.length (arguments_of t)) /\ r = Raise ValueError /\ d' = d)).
Proof.
  unfold set_geometry. intro H. destruct (geometry_names t) as [names|] eqn:E.
  - destruct (geometry_known _ _ E) as (EN & Ht & ND & N1 & N2). rewrite <- EN. destruct (unpack names ps) as [k|] eqn:U.
    + destruct (unpack_spec _ ND _ _ U) as [UL US]. destruct (US d) as (d1 & A & B & C & D & F & G).
      unfold bind, setattr, modS in H. rewrite A in H. injection H as <- <-. cbn [dv_sim dv_opt dv_osim dv_dict].
      repeat (split; [assumption|]). left. split; [exact Ht|]. split; [exact UL|]. split; [reflexivity|]. split.
      * intros i n Hn. assert (Hin : List.In n names) by (eapply List.nth_error_In; exact Hn).
        destruct (String.eqb_spec n "is_geometry_set") as [->|]; [contradiction|]. destruct (String.eqb_spec n "structure_type") as [->|]; [contradiction|]. exact (F i n Hn).
      * split; [reflexivity|]. split; [reflexivity|]. intros n Hn.
        destruct (String.eqb_spec n "is_geometry_set") as [->|]; [exfalso; apply Hn; inK|]. destruct (String.eqb_spec n "structure_type") as [->|]; [exfalso; apply Hn; inK|].
        apply G. intro Hi. apply Hn. right. right. exact Hi.
    + injection H as <- <-. repeat (split; [reflexivity|]). right. split; [|split; reflexivity]. intros [_ Hl]. exact (unpack_length _ _ U Hl).
  - injection H as <- <-. repeat (split; [reflexivity|]). right. split; [|split; reflexivity]. intros [Ht _].
    destruct Ht as [<-|[<-|[<-|[]]]]; discriminate.
Qed.

(* ------------------------------------------------------------------ *)
(** ** What the other methods need and give *)

(** m succeeds only on a device that has the attribute n *)
Definition needs {A} (n : string) (m : St device A) : Prop := forall d d' a, m d = (d', Ok a) -> has d n.
Lemma needs_head {A B} n (m : St device A) (f : A -> St device B) : needs n m -> needs n (bind m f).
Proof. intros Hm d d' b H. destruct (bind_ok _ _ _ _ _ H) as (d1 & a & H1 & _). exact (Hm _ _ _ H1). Qed.
Lemma needs_tail {A B} n K (m : St device A) (f : A -> St device B) : only K m -> ~ List.In n K -> (forall a, needs n (f a)) -> needs n (bind m f).
Proof.
  intros Ho Hn Hf d d' b H. destruct (bind_ok _ _ _ _ _ H) as (d1 & a & H1 & H2). specialize (Hf _ _ _ _ H2).
  unfold has in *. rewrite <- (proj1 (Ho _ _ _ H1) n Hn). exact Hf.
Qed.
Lemma needs_getattr n : needs n (getattr n).
Proof. intros d d' a H. unfold getattr in H. unfold has. destruct (dv_dict d n); [discriminate|discriminate]. Qed.
Lemma needs_getint n : needs n (getint n).
Proof. apply needs_head, needs_getattr. Qed.

Lemma needs_probe n x a nl : needs n a -> needs n (probe_to x a nl).
Proof. intro H. apply needs_head, H. Qed.
Lemma needs_two_out : needs "ny" args_two_out.
Proof. unfold args_two_out. eapply needs_tail; [apply (only_far [])|intros []|intro]. apply needs_head, needs_getint. Qed.
Lemma needs_three b : needs "ny" (args_three b).
Proof. unfold args_three. eapply needs_tail; [apply (only_far [])|intros []|intro]. apply needs_head, needs_getint. Qed.
Lemma needs_right : needs "ny" args_ortho_right.
Proof. unfold args_ortho_right. eapply needs_tail; [apply (only_far [])|intros []|intro]. apply needs_head, needs_getint. Qed.

Definition known_type (t : string) : Prop := List.In t ["two_port"; "three_port"; "ortho_port"].
Lemma only_W_in : only ["W_in"] take_W_in. Proof. apply only_take. inK. Qed.
Lemma notin_ny : ~ List.In "ny" ["W_in"]. Proof. intros [H|[]]; discriminate. Qed.

(** calc_transmissions on a known structure *)
Lemma trans_ok t d d' : dv_dict d "structure_type" = Some (VStr t) -> known_type t -> calc_transmissions d = (d', Ok tt) ->
  has d "ny" /\ has d' "W_in" /\ (t = "two_port" -> has d' "T_lin" /\ has d' "T_nl") /\ (t <> "two_port" -> has d' "S").
Proof.
  intros Ht Hk H. unfold calc_transmissions, get_type, bind, getattr, ret in H. rewrite Ht in H.
  assert (TW : gives ["W_in"] take_W_in).
  { unfold take_W_in. apply gives_tail. intro s. destruct (s_W_in (dv_sim s)); [intros x x' y Hx; discriminate|apply gives_set|apply gives_set]. }
  destruct Hk as [<-|[<-|[<-|[]]]]; cbn [String.eqb Ascii.eqb Bool.eqb] in H.
  - assert (Hny : needs "ny" calc_trans_two) by (eapply needs_tail; [apply only_W_in|apply notin_ny|intro; apply needs_head, needs_probe, needs_two_out]).
    assert (HW : gives ["W_in"] calc_trans_two) by (eapply gives_later; [exact TW|intro; apply (only_weaken trans_names trans_names); [auto|onlyT]]).
    assert (HT : gives ["T_lin"; "T_nl"] calc_trans_two).
    { apply gives_cons.
      - do 4 (apply gives_tail; intro). eapply gives_later; [apply gives_set|intro; apply (only_weaken trans_names trans_names); [auto|onlyT]].
      - do 8 (apply gives_tail; intro). apply gives_set. }
    split; [exact (Hny _ _ _ H)|]. split; [apply (HW _ _ _ H); inK|]. split; [intros _|intro N; contradiction].
    split; apply (HT _ _ _ H); inK.
  - assert (Hny : needs "ny" calc_trans_three) by (eapply needs_tail; [apply only_W_in|apply notin_ny|intro; apply needs_head, needs_probe, needs_three]).
    assert (HW : gives ["W_in"] calc_trans_three) by (eapply gives_later; [exact TW|intro; apply (only_weaken trans_names trans_names); [auto|onlyT]]).
    assert (HT : gives ["S"] calc_trans_three) by (do 9 (apply gives_tail; intro); apply gives_set).
    split; [exact (Hny _ _ _ H)|]. split; [apply (HW _ _ _ H); inK|]. split; [discriminate|intros _; apply (HT _ _ _ H); inK].
  - assert (Hny : needs "ny" calc_trans_ortho) by (eapply needs_tail; [apply only_W_in|apply notin_ny|intro; apply needs_head, needs_probe, needs_right]).
    assert (HW : gives ["W_in"] calc_trans_ortho) by (eapply gives_later; [exact TW|intro; apply (only_weaken trans_names trans_names); [auto|onlyT]]).
    assert (HT : gives ["S"] calc_trans_ortho) by (do 9 (apply gives_tail; intro); apply gives_set).
    split; [exact (Hny _ _ _ H)|]. split; [apply (HW _ _ _ H); inK|]. split; [discriminate|intros _; apply (HT _ _ _ H); inK].
Qed.
Lemma shift_gives e : gives ["index_shift"] (dev_index_shift e).
Proof. apply gives_tail. intro. apply gives_set. Qed.
Lemma freq_gives e Nf : gives ["freqs"; "objs"; "FWHM"; "Q"] (freq_scan e Nf).
Proof.
  unfold freq_scan. apply gives_tail. intros [[fs os] fw].
  apply gives_cons; [|apply gives_cons; [|apply gives_cons]].
  - eapply (gives_later _ ["freqs"; "objs"; "FWHM"; "Q"]); [apply gives_set|intro; onlyK].
  - apply gives_tail. intro. eapply (gives_later _ ["freqs"; "objs"; "FWHM"; "Q"]); [apply gives_set|intro; onlyK].
  - do 2 (apply gives_tail; intro). eapply (gives_later _ ["freqs"; "objs"; "FWHM"; "Q"]); [apply gives_set|intro; onlyK].
  - do 4 (apply gives_tail; intro). apply gives_set.
Qed.
Lemma power_gives e Np a b t d d' : dv_dict d "structure_type" = Some (VStr t) -> known_type t -> power_scan e Np a b d = (d', Ok tt) ->
  has d' "powers" /\ has d' "transmissions".
Proof.
  intros Ht Hk H. unfold power_scan in H. unfold get_type, bind at 1, bind at 1, getattr, ret in H. rewrite Ht in H. cbv iota beta in H.
  destruct (scan_args t) as [l|] eqn:E; [|destruct Hk as [<-|[<-|[<-|[]]]]; discriminate].
  assert (G : gives ["powers"; "transmissions"]
    (d <- getS ;; r <- on_opt (scan_power e (Some (List.map (probe_of d) l)) Np a b "hybrid") ;;
     setattr "powers" (VList (fst r)) ;;; setattr "transmissions" (VTable (snd r)))).
  { do 2 (apply gives_tail; intro). apply gives_cons; [eapply (gives_later _ ["powers"; "transmissions"]); [apply gives_set|intro; onlyK]|apply gives_tail; intro; apply gives_set]. }
  split; apply (G _ _ _ H); inK.
Qed.

(** the problem of the copied simulation (grid, permittivity, source, modes, W_in) is never changed *)
Definition keeps {A} (m : St device A) : Prop := forall d d' r, m d = (d', r) -> same_problem (dv_sim d) (dv_sim d').
Lemma keeps_bind {A B} (m : St device A) (f : A -> St device B) : keeps m -> (forall a, keeps (f a)) -> keeps (bind m f).
Proof.
  intros Hm Hf d d' r H. unfold bind in H. destruct (m d) as [d1 [a|]] eqn:E; [eapply same_trans; [exact (Hm _ _ _ E)|exact (Hf _ _ _ _ H)]|].
  injection H as <- _. exact (Hm _ _ _ E).
Qed.
Lemma keeps_pure {A} (f : device -> res A) : keeps (fun d => (d, f d)).
Proof. intros d d' r H. injection H as <- _. apply same_refl. Qed.
Lemma keeps_setattr n v : keeps (setattr n v).
Proof. intros d d' r H. unfold setattr, modS in H. injection H as <- _. apply same_refl. Qed.
Lemma keeps_getattr n : keeps (getattr n).
Proof. intros d d' r H. unfold getattr in H. destruct (dv_dict d n); injection H as <- _; apply same_refl. Qed.
Lemma keeps_on_opt {A} (m : St (opt * sim) A) : keeps (on_opt m).
Proof. intros d d' r H. unfold on_opt in H. destruct (m (dv_opt d, dv_osim d)) as [[o' s'] x]. injection H as <- _. apply same_refl. Qed.
Lemma keeps_on_sim {A} (m : St sim A) : (forall s s' r, m s = (s', r) -> same_problem s s') -> keeps (on_sim m).
Proof. intros Hm d d' r H. unfold on_sim in H. destruct (m (dv_sim d)) as [s' x] eqn:E. injection H as <- _. exact (Hm _ _ _ E). Qed.
Ltac keepsK := repeat first
  [ apply keeps_setattr | apply keeps_getattr | apply keeps_on_opt | apply keeps_bind; [|intro] | apply keeps_pure ].
Lemma keeps_shift e : keeps (dev_index_shift e).
Proof. apply keeps_bind; [apply keeps_on_sim; intros s s' r H; exact (proj1 (index_shift_same _ _ _ _ H))|intro; apply keeps_setattr]. Qed.
Lemma keeps_take : keeps take_W_in.
Proof. unfold take_W_in. apply keeps_bind; [apply keeps_pure|intro d]. destruct (s_W_in (dv_sim d)); keepsK. Qed.
Lemma keeps_trans : keeps calc_transmissions.
Proof.
  unfold calc_transmissions. apply keeps_bind; [keepsK|intro t]. destruct (String.eqb t "two_port"); [|destruct (String.eqb t "three_port"); [|destruct (String.eqb t "ortho_port")]].
  - unfold calc_trans_two. apply keeps_bind; [apply keeps_take|intro]. keepsK.
  - unfold calc_trans_three. apply keeps_bind; [apply keeps_take|intro]. keepsK.
  - unfold calc_trans_ortho. apply keeps_bind; [apply keeps_take|intro]. keepsK.
  - keepsK.
Qed.
Lemma keeps_freq e Nf : keeps (freq_scan e Nf).
Proof. unfold freq_scan. apply keeps_bind; [apply keeps_on_opt|]. intros [[fs os] fw]. keepsK. Qed.
Lemma keeps_power e Np a b : keeps (power_scan e Np a b).
Proof. unfold power_scan. apply keeps_bind; [keepsK|intro t]. destruct (scan_args t) as [l|]; keepsK. Qed.
Lemma keeps_generate e Nf Np a b : keeps (generate_data e Nf Np a b).
Proof. unfold generate_data. apply keeps_bind; [apply keeps_shift|intro]. apply keeps_bind; [apply keeps_trans|intro]. apply keeps_bind; [apply keeps_freq|intro]. apply keeps_bind; [apply keeps_power|intro]. apply keeps_setattr. Qed.

(* ------------------------------------------------------------------ *)
(** ** The invariant of a device *)

Record dev_inv (d : device) : Prop := {
  di_par : flag d "are_parameters_set" -> forall n, List.In n parameter_names -> has d n;
  di_ny : has d "ny" -> flag d "are_parameters_set" /\
    dv_dict d "Nx" = Some (VInt (Z.of_nat (s_Nx (dv_sim d)))) /\ dv_dict d "Ny" = Some (VInt (Z.of_nat (s_Ny (dv_sim d)))) /\
    dv_dict d "nx" = Some (VInt (Z.of_nat (s_Nx (dv_sim d) / 2))) /\ dv_dict d "ny" = Some (VInt (Z.of_nat (s_Ny (dv_sim d) / 2)));
  di_geo : flag d "is_geometry_set" -> has d "structure_type";
  di_type : forall v, dv_dict d "structure_type" = Some v -> exists t, v = VStr t /\ known_type t /\ flag d "is_geometry_set" /\
    forall n, List.In n (arguments_of t) -> has d n;
  di_data : flag d "is_data_generated" -> flag d "are_parameters_set" /\ flag d "is_geometry_set" /\
    (forall n, List.In n data_names -> has d n) /\ ((has d "T_lin" /\ has d "T_nl") \/ has d "S") }.

(** a method that sets only the attributes of K, none of which the invariant is about *)
Lemma inv_only {A} K (m : St device A) d d' r : only K m -> keeps m ->
  (forall n, List.In n ["are_parameters_set"; "ny"; "Nx"; "Ny"; "nx"; "is_geometry_set"; "structure_type"; "is_data_generated"] -> ~ List.In n K) ->
  m d = (d', r) -> dev_inv d -> dev_inv d'.
Proof.
  intros Ho Hs HK H [I1 I2 I3 I4 I5]. destruct (Ho _ _ _ H) as [O1 O2]. apply Hs in H.
  destruct H as (_ & _ & _ & _ & _ & SX & SY & _).
  assert (E1 := O1 _ (HK "are_parameters_set" ltac:(inK))). assert (E2 := O1 _ (HK "ny" ltac:(inK))). assert (E3 := O1 _ (HK "Nx" ltac:(inK))).
  assert (E4 := O1 _ (HK "Ny" ltac:(inK))). assert (E5 := O1 _ (HK "nx" ltac:(inK))). assert (E6 := O1 _ (HK "is_geometry_set" ltac:(inK))).
  assert (E7 := O1 _ (HK "structure_type" ltac:(inK))). assert (E8 := O1 _ (HK "is_data_generated" ltac:(inK))).
  constructor; unfold flag in *; unfold has in I2, I3 |- *.
  - rewrite E1. intros F n Hn. apply O2. exact (I1 F n Hn).
  - rewrite E1, E2, E3, E4, E5, SX, SY. exact I2.
  - rewrite E6, E7. exact I3.
  - rewrite E7, E6. intros v Hv. destruct (I4 v Hv) as (t & A1 & A2 & A3 & A4). exists t. repeat (split; [assumption|]). intros n Hn. apply O2, A4, Hn.
  - rewrite E1, E6, E8. intro F. destruct (I5 F) as (A1 & A2 & A3 & A4). repeat (split; [assumption|]). split; [intros n Hn; apply O2, A3, Hn|].
    destruct A4 as [[A4 A5]|A4]; [left; split; apply O2; assumption|right; apply O2, A4].
Qed.

Lemma inv_keys : forall K, List.In K [trans_names; ["index_shift"]; ["freqs"; "objs"; "FWHM"; "Q"]; ["powers"; "transmissions"]] ->
  forall n, List.In n ["are_parameters_set"; "ny"; "Nx"; "Ny"; "nx"; "is_geometry_set"; "structure_type"; "is_data_generated"] -> ~ List.In n K.
Proof.
  assert (NI : forall n (l : list string), (if List.in_dec string_dec n l then true else false) = false -> ~ List.In n l) by (intros n l; destruct (List.in_dec string_dec n l); [discriminate|auto]).
  intros K HK n Hn. apply NI.
  repeat (destruct HK as [<-|HK]; [repeat (destruct Hn as [<-|Hn]; [reflexivity|]); destruct Hn|]). destruct HK.
Qed.
Lemma inv_shift e d d' r : dev_index_shift e d = (d', r) -> dev_inv d -> dev_inv d'.
Proof. apply (inv_only _ _ _ _ _ (only_shift e) (keeps_shift e)). apply inv_keys. inK. Qed.
Lemma inv_trans d d' r : calc_transmissions d = (d', r) -> dev_inv d -> dev_inv d'.
Proof. apply (inv_only _ _ _ _ _ only_trans keeps_trans). apply inv_keys. inK. Qed.
Lemma inv_freq e Nf d d' r : freq_scan e Nf d = (d', r) -> dev_inv d -> dev_inv d'.
Proof. apply (inv_only _ _ _ _ _ (only_freq e Nf) (keeps_freq e Nf)). apply inv_keys. inK. Qed.
Lemma inv_power e Np a b d d' r : power_scan e Np a b d = (d', r) -> dev_inv d -> dev_inv d'.
Proof. apply (inv_only _ _ _ _ _ (only_power e Np a b) (keeps_power e Np a b)). apply inv_keys. inK. Qed.

(** generate_data on success: what was there before, what is there after *)
Lemma generate_ok e Nf Np a b d d' : dev_inv d -> generate_data e Nf Np a b d = (d', Ok tt) ->
  flag d "are_parameters_set" /\ flag d "is_geometry_set" /\
  exists d1 d2 d3 d4, dev_index_shift e d = (d1, Ok tt) /\ calc_transmissions d1 = (d2, Ok tt) /\ freq_scan e Nf d2 = (d3, Ok tt) /\
    power_scan e Np a b d3 = (d4, Ok tt) /\ d' = mkDev (dv_sim d4) (dv_opt d4) (dv_osim d4) (fun k => if String.eqb k "is_data_generated" then Some (VBool true) else dv_dict d4 k) /\
    dev_inv d4 /\ flag d4 "are_parameters_set" /\ flag d4 "is_geometry_set" /\ (forall n, List.In n data_names -> has d4 n) /\ ((has d4 "T_lin" /\ has d4 "T_nl") \/ has d4 "S").
Proof.
  intros I H. unfold generate_data in H.
  destruct (bind_ok _ _ _ _ _ H) as (d1 & [] & H1 & HA). clear H. destruct (bind_ok _ _ _ _ _ HA) as (d2 & [] & H2 & HB). clear HA.
  destruct (bind_ok _ _ _ _ _ HB) as (d3 & [] & H3 & HC). clear HB. destruct (bind_ok _ _ _ _ _ HC) as (d4 & [] & H4 & HD). clear HC.
  assert (I1 := inv_shift _ _ _ _ H1 I). assert (I2 := inv_trans _ _ _ H2 I1). assert (I3 := inv_freq _ _ _ _ _ H3 I2). assert (I4 := inv_power _ _ _ _ _ _ _ H4 I3).
  assert (T1 : has d1 "structure_type").
  { revert H2. unfold calc_transmissions. intro H2. destruct (bind_ok _ _ _ _ _ H2) as (x & t & Ht & _). revert Ht. apply needs_head, needs_getattr. }
  destruct (dv_dict d1 "structure_type") as [v|] eqn:EV; [|exfalso; apply T1; exact EV].
  destruct (di_type _ I1 _ EV) as (t & -> & Hk & G1 & _).
  destruct (trans_ok _ _ _ EV Hk H2) as (Ny1 & W2 & TA & TB).
  destruct (di_ny _ I1 Ny1) as (P1 & _).
  assert (K1 := inv_keys _ (or_intror (or_introl eq_refl) : List.In ["index_shift"] [trans_names; ["index_shift"]; ["freqs"; "objs"; "FWHM"; "Q"]; ["powers"; "transmissions"]])).
  assert (K2 := inv_keys _ (or_introl eq_refl : List.In trans_names [trans_names; ["index_shift"]; ["freqs"; "objs"; "FWHM"; "Q"]; ["powers"; "transmissions"]])).
  assert (K3 := inv_keys _ (or_intror (or_intror (or_introl eq_refl)) : List.In ["freqs"; "objs"; "FWHM"; "Q"] [trans_names; ["index_shift"]; ["freqs"; "objs"; "FWHM"; "Q"]; ["powers"; "transmissions"]])).
  assert (K4 := inv_keys _ (or_intror (or_intror (or_intror (or_introl eq_refl))) : List.In ["powers"; "transmissions"] [trans_names; ["index_shift"]; ["freqs"; "objs"; "FWHM"; "Q"]; ["powers"; "transmissions"]])).
  destruct (only_shift e _ _ _ H1) as [O1 M1]. destruct (only_trans _ _ _ H2) as [O2 M2]. destruct (only_freq e Nf _ _ _ H3) as [O3 M3]. destruct (only_power e Np a b _ _ _ H4) as [O4 M4].
  assert (EV3 : dv_dict d3 "structure_type" = Some (VStr t)) by (rewrite O3, O2 by first [apply K3; inK|apply K2; inK]; exact EV).
  destruct (power_gives _ _ _ _ _ _ _ EV3 Hk H4) as [Pw1 Pw2].
  unfold flag in *.
  split; [rewrite <- O1 by (apply K1; inK); exact P1|]. split; [rewrite <- O1 by (apply K1; inK); exact G1|].
  exists d1, d2, d3, d4. repeat (split; [assumption|]).
  split; [unfold setattr, modS in HD; injection HD as <-; reflexivity|]. split; [exact I4|].
  split; [rewrite O4, O3, O2 by first [apply K4; inK|apply K3; inK|apply K2; inK]; exact P1|].
  split; [rewrite O4, O3, O2 by first [apply K4; inK|apply K3; inK|apply K2; inK]; exact G1|].
  split.
  - intros n Hn. cbn [data_names List.In] in Hn. repeat destruct Hn as [<-|Hn]; try contradiction.
    + apply M4, M3, M2. exact (shift_gives e _ _ _ H1 "index_shift" ltac:(inK)).
    + apply M4, M3. exact W2.
    + apply M4. exact (freq_gives e Nf _ _ _ H3 "freqs" ltac:(inK)).
    + apply M4. exact (freq_gives e Nf _ _ _ H3 "objs" ltac:(inK)).
    + apply M4. exact (freq_gives e Nf _ _ _ H3 "FWHM" ltac:(inK)).
    + apply M4. exact (freq_gives e Nf _ _ _ H3 "Q" ltac:(inK)).
    + exact Pw1.
    + exact Pw2.
  - destruct (string_dec t "two_port") as [E|E]; [left; destruct (TA E); split; apply M4, M3; assumption|right; apply M4, M3, TB, E].
Qed.

Lemma inv_generate e Nf Np a b d d' r : generate_data e Nf Np a b d = (d', r) -> dev_inv d -> dev_inv d'.
Proof.
  intros H I. destruct r as [[]|x].
  - destruct (generate_ok _ _ _ _ _ _ _ I H) as (_ & _ & d1 & d2 & d3 & d4 & _ & _ & _ & _ & -> & [J1 J2 J3 J4 J5] & P & G & D & S).
    set (d' := mkDev _ _ _ _).
    assert (Q : forall n, n <> "is_data_generated" -> dv_dict d' n = dv_dict d4 n) by (intros n Hn; unfold d'; cbn [dv_dict]; destruct (String.eqb_spec n "is_data_generated"); [contradiction|reflexivity]).
    assert (QS : dv_sim d' = dv_sim d4) by reflexivity.
    assert (Qh : forall n, has d4 n -> has d' n) by (intros n Hn; unfold has, d' in *; cbn [dv_dict]; destruct (String.eqb n "is_data_generated"); [discriminate|exact Hn]).
    clearbody d'. constructor; unfold flag in *; unfold has in J2, J3 |- *; rewrite ?QS.
    + rewrite Q by discriminate. intros F n Hn. apply Qh, J1; assumption.
    + rewrite !Q by discriminate. exact J2.
    + rewrite !Q by discriminate. exact J3.
    + rewrite !Q by discriminate. intros v Hv. destruct (J4 v Hv) as (t & A1 & A2 & A3 & A4). exists t. repeat (split; [assumption|]). intros n Hn. apply Qh, A4, Hn.
    + rewrite (Q "are_parameters_set"), (Q "is_geometry_set") by discriminate. intros _. repeat (split; [assumption|]). split; [intros n Hn; apply Qh, D, Hn|].
      destruct S as [[S1 S2]|S]; [left; split; apply Qh; assumption|right; apply Qh, S].
  - unfold generate_data in H. unfold bind in H.
    destruct (dev_index_shift e d) as [d1 [[]|]] eqn:H1; assert (I1 := inv_shift _ _ _ _ H1 I); [|injection H as <- _; exact I1].
    destruct (calc_transmissions d1) as [d2 [[]|]] eqn:H2; assert (I2 := inv_trans _ _ _ H2 I1); [|injection H as <- _; exact I2].
    destruct (freq_scan e Nf d2) as [d3 [[]|]] eqn:H3; assert (I3 := inv_freq _ _ _ _ _ H3 I2); [|injection H as <- _; exact I3].
    destruct (power_scan e Np a b d3) as [d4 [[]|]] eqn:H4; assert (I4 := inv_power _ _ _ _ _ _ _ H4 I3); [|injection H as <- _; exact I4].
    unfold setattr, modS in H. discriminate.
Qed.

Ltac isnt := let H := fresh in intro H; cbn [List.In] in H; repeat (destruct H as [H|H]; [discriminate H|]); exact H.

Lemma inv_parameters a b n x y z d d' r : set_parameters a b n x y z d = (d', r) -> dev_inv d -> dev_inv d'.
Proof.
  intros H [I1 I2 I3 I4 I5]. destruct (parameters_cases _ _ _ _ _ _ _ _ _ H) as (ES & _ & _ & [(L0 & f & _ & _ & _ & _ & _ & _ & _ & ED)|[_ ED]]).
  - assert (Hh : forall k, has d k -> has d' k).
    { intros k Hk. unfold has in *. rewrite ED. repeat match goal with |- context [if ?c then _ else _] => destruct c; [discriminate|] end. exact Hk. }
    assert (Hp : forall k, List.In k parameter_names -> has d' k).
    { intros k Hk. unfold has. rewrite ED. cbn [parameter_names List.In] in Hk. repeat destruct Hk as [<-|Hk]; try contradiction; discriminate. }
    assert (F : flag d' "are_parameters_set") by (unfold flag; rewrite ED; reflexivity).
    assert (G1 : dv_dict d' "is_geometry_set" = dv_dict d "is_geometry_set") by (rewrite ED; reflexivity).
    assert (G2 : dv_dict d' "structure_type" = dv_dict d "structure_type") by (rewrite ED; reflexivity).
    assert (G3 : dv_dict d' "is_data_generated" = dv_dict d "is_data_generated") by (rewrite ED; reflexivity).
    constructor; unfold flag in *.
    + intros _. exact Hp.
    + intros _. split; [exact F|]. rewrite ES, ED. repeat split; reflexivity.
    + unfold has. rewrite G1, G2. exact I3.
    + rewrite G1, G2. intros v Hv. destruct (I4 v Hv) as (t & A1 & A2 & A3 & A4). exists t. repeat (split; [assumption|]). intros m Hm. apply Hh, A4, Hm.
    + rewrite G1, G3. intro D. destruct (I5 D) as (A1 & A2 & A3 & A4). split; [exact F|]. split; [exact A2|]. split; [intros m Hm; apply Hh, A3, Hm|].
      destruct A4 as [[A4 A5]|A4]; [left; split; apply Hh; assumption|right; apply Hh, A4].
  - (* it raised: the flags and sizes are as before; the attributes it set are only overwritten *)
    assert (Hh : forall k, has d k -> has d' k).
    { assert (Ho : only param_keys (set_parameters a b n x y z)).
      { unfold set_parameters. repeat first [apply only_bind; [|intro] | apply only_lift | apply only_getnum | apply only_getattr | apply only_setattr; solve [inK]].
        match goal with |- only _ (match ?v with _ => _ end) => destruct v as [| | | | | | | | |[?|]|] end; onlyK. }
      exact (proj2 (Ho _ _ _ H)). }
    assert (G : forall k, List.In k ["are_parameters_set"; "ny"; "Nx"; "Ny"; "nx"; "is_geometry_set"; "structure_type"; "is_data_generated"] -> dv_dict d' k = dv_dict d k).
    { intros k Hk. apply ED. cbn [List.In] in Hk. repeat destruct Hk as [<-|Hk]; try contradiction; isnt. }
    assert (Q1 := G "are_parameters_set" ltac:(inK)). assert (Q2 := G "ny" ltac:(inK)). assert (Q3 := G "Nx" ltac:(inK)). assert (Q4 := G "Ny" ltac:(inK)).
    assert (Q5 := G "nx" ltac:(inK)). assert (Q6 := G "is_geometry_set" ltac:(inK)). assert (Q7 := G "structure_type" ltac:(inK)). assert (Q8 := G "is_data_generated" ltac:(inK)).
    constructor; unfold flag in *; unfold has in I2, I3 |- *; rewrite ?ES.
    + rewrite Q1. intros F k Hk. apply Hh. exact (I1 F k Hk).
    + rewrite Q1, Q2, Q3, Q4, Q5. exact I2.
    + rewrite Q6, Q7. exact I3.
    + rewrite Q6, Q7. intros v Hv. destruct (I4 v Hv) as (t & A1 & A2 & A3 & A4). exists t. repeat (split; [assumption|]). intros m Hm. apply Hh, A4, Hm.
    + rewrite Q1, Q6, Q8. intro D. destruct (I5 D) as (A1 & A2 & A3 & A4). repeat (split; [assumption|]). split; [intros m Hm; apply Hh, A3, Hm|].
      destruct A4 as [[A4 A5]|A4]; [left; split; apply Hh; assumption|right; apply Hh, A4].
Qed.

Lemma arguments_keep t : known_type t ->
  forall n, List.In n ["are_parameters_set"; "ny"; "Nx"; "Ny"; "nx"; "is_data_generated"; "T_lin"; "T_nl"; "S"] -> ~ List.In n ("structure_type" :: "is_geometry_set" :: arguments_of t).
Proof.
  assert (NI : forall n (l : list string), (if List.in_dec string_dec n l then true else false) = false -> ~ List.In n l) by (intros n l; destruct (List.in_dec string_dec n l); [discriminate|auto]).
  intros Hk n Hn. apply NI.
  repeat (destruct Hk as [<-|Hk]; [repeat (destruct Hn as [<-|Hn]; [reflexivity|]); destruct Hn|]). destruct Hk.
Qed.

Lemma geometry_has t ps d d' r : set_geometry t ps d = (d', r) -> forall k, has d k -> has d' k.
Proof.
  intros H k Hk. destruct (geometry_cases _ _ _ _ _ H) as (_ & _ & _ & [(Ht & Hl & _ & HA & HT & HG & HO)|(_ & _ & ->)]); [|exact Hk].
  unfold has in *. destruct (List.in_dec string_dec k ("structure_type" :: "is_geometry_set" :: arguments_of t)) as [[<-|[<-|Hin]]|Hn].
  - rewrite HT. discriminate.
  - rewrite HG. discriminate.
  - destruct (List.In_nth_error _ _ Hin) as [i Hi]. rewrite (HA i k Hi). apply List.nth_error_Some. rewrite Hl. apply List.nth_error_Some. congruence.
  - rewrite HO by exact Hn. exact Hk.
Qed.
Lemma inv_geometry t ps d d' r : set_geometry t ps d = (d', r) -> dev_inv d -> dev_inv d'.
Proof.
  intros H [I1 I2 I3 I4 I5]. assert (Hh := geometry_has _ _ _ _ _ H).
  destruct (geometry_cases _ _ _ _ _ H) as (ES & _ & _ & [(Ht & Hl & _ & HA & HT & HG & HO)|(_ & _ & ->)]); [|constructor; assumption].
  assert (G : forall k, List.In k ["are_parameters_set"; "ny"; "Nx"; "Ny"; "nx"; "is_data_generated"; "T_lin"; "T_nl"; "S"] -> dv_dict d' k = dv_dict d k) by (intros k Hk; apply HO, (arguments_keep t Ht k Hk)).
  assert (Q1 := G "are_parameters_set" ltac:(inK)). assert (Q2 := G "ny" ltac:(inK)). assert (Q3 := G "Nx" ltac:(inK)). assert (Q4 := G "Ny" ltac:(inK)).
  assert (Q5 := G "nx" ltac:(inK)). assert (Q8 := G "is_data_generated" ltac:(inK)).
  constructor; unfold flag in *; unfold has in I2, I3 |- *; rewrite ?ES.
  - rewrite Q1. intros F k Hk. apply Hh. exact (I1 F k Hk).
  - rewrite Q1, Q2, Q3, Q4, Q5. exact I2.
  - rewrite HT. discriminate.
  - rewrite HT, HG. intros v Hv. injection Hv as <-. exists t. split; [reflexivity|]. split; [exact Ht|]. split; [reflexivity|].
    intros m Hm. destruct (List.In_nth_error _ _ Hm) as [i Hi]. rewrite (HA i m Hi). apply List.nth_error_Some. rewrite Hl. apply List.nth_error_Some. congruence.
  - rewrite Q1, HG, Q8. intro D. destruct (I5 D) as (A1 & A2 & A3 & A4). split; [exact A1|]. split; [reflexivity|]. split; [intros m Hm; apply Hh, A3, Hm|].
    destruct A4 as [[A4 A5]|A4]; [left; split; apply Hh; assumption|right; apply Hh, A4].
Qed.

Lemma inv_new e s o so d : Device e s o so = Ok d -> dev_inv d.
Proof.
  unfold Device, setattr, modS, bind, getS, on_sim. cbn [dv_sim dv_opt dv_osim dv_dict].
  destruct (solve_fields e false false s) as [s1 [?|]]; [|discriminate]. cbn [dv_sim dv_opt dv_osim dv_dict].
  destruct (solve_fields_nl_default e s1) as [s2 [?|]]; [|discriminate]. intro H. injection H as <-. cbn [dv_sim dv_opt dv_osim dv_dict].
  constructor; unfold flag, has; cbn; try discriminate; intro N; contradiction.
Qed.

Lemma history_inv e d : dev_history e d -> dev_inv d.
Proof.
  induction 1 as [s o so d H|c d H IH]; [exact (inv_new _ _ _ _ _ H)|].
  destruct (call e c d) as [d' r] eqn:E. cbn [fst]. destruct c; cbn [call] in E.
  - exact (inv_parameters _ _ _ _ _ _ _ _ _ E IH).
  - exact (inv_geometry _ _ _ _ _ E IH).
  - exact (inv_generate _ _ _ _ _ _ _ _ E IH).
  - exact (inv_shift _ _ _ _ E IH).
  - exact (inv_trans _ _ _ E IH).
  - exact (inv_freq _ _ _ _ _ E IH).
  - exact (inv_power _ _ _ _ _ _ _ E IH).
Qed.

(** after computing the index shift both sets of fields are there, from solves of the problem of the device *)
Lemma shift_fields e s s' a : compute_index_shift e s = (s', Ok a) ->
  same_problem s s' /\
  (exists t t' F d, same_problem s t /\ solve_fields e false false t = (t', Ok F) /\ s_fields s' = store3 (s_pol s) d F) /\
  (exists t G c d, same_problem s t /\ solve_fields_nl_default e t = (s', Ok (G, c)) /\ s_fields_nl s' = store3 (s_pol s) d G).
Proof.
  intro H. assert (HS := index_shift_same _ _ _ _ H). destruct HS as [HS _]. split; [exact HS|].
  unfold compute_index_shift, bind in H. destruct (solve_fields e false false s) as [s1 [F|]] eqn:E1; [|discriminate].
  destruct (solve_fields_nl_default e s1) as [s2 [[G c]|]] eqn:E2; [|discriminate]. unfold getS, ret in H. injection H as <- _.
  assert (L1 := E1). apply solve_fields_lin_state in L1 as (S1 & [(? & _)|(_ & X & _ & F1 & R1)]); [discriminate|]. cbv zeta in F1, R1. injection R1 as ->.
  assert (P1 : s_pol s1 = s_pol s) by (unfold same_problem in S1; intuition).
  split.
  - assert (L2 := E2). apply solve_nl_step in L2 as (_ & [F2|(t & F & Q1 & Q2)]).
    + exists s, s1, (fst (derived_fields s (s_epsC s) false X), snd (derived_fields s (s_epsC s) false X), X), (s_fields s). split; [apply same_refl|]. split; [exact E1|]. rewrite F2. exact F1.
    + assert (Q3 := Q1). apply solve_fields_lin_state in Q3 as (_ & [(? & _)|(_ & Y & _ & F3 & R3)]); [discriminate|]. cbv zeta in F3, R3. injection R3 as ->.
      eexists s1, t, _, (s_fields s1). split; [exact S1|]. split; [exact Q1|]. rewrite Q2, F3, P1. reflexivity.
  - unfold solve_fields_nl_default, solve_fields_nl in E2. destruct (run_solver_nl _ _ _ _ _ _ s1) as [s3 [[F3 c3]|]] eqn:E3; [|discriminate].
    assert (P3 := hybrid_pol _ _ _ _ E3).
    injection E2 as <- <- <-. exists s1, F3, c3, (s_fields_nl s3). split; [exact S1|]. split.
    + unfold solve_fields_nl_default, solve_fields_nl. rewrite E3. reflexivity.
    + cbn [upd_fields_nl s_fields_nl]. rewrite P3, P1. reflexivity.
Qed.

(* ------------------------------------------------------------------ *)
(** ** C91: theorems *)

(** The flags tell the truth: after any sequence of calls, whether they raised or not, a flag
    that is True means that everything it announces is stored. *)
Theorem C91_flags_tell_the_truth : forall e d, dev_history e d ->
  (flag d "are_parameters_set" -> forall n, List.In n parameter_names -> has d n) /\
  (flag d "is_geometry_set" -> exists t, dv_dict d "structure_type" = Some (VStr t) /\ List.In t ["two_port"; "three_port"; "ortho_port"] /\
     forall n, List.In n (arguments_of t) -> has d n) /\
  (flag d "is_data_generated" -> flag d "are_parameters_set" /\ flag d "is_geometry_set" /\
     (forall n, List.In n data_names -> has d n) /\ ((has d "T_lin" /\ has d "T_nl") \/ has d "S")).
Proof.
  intros e d Hd. destruct (history_inv e d Hd) as [I1 I2 I3 I4 I5]. split; [exact I1|]. split; [|exact I5].
  intro G. specialize (I3 G). unfold has in I3. destruct (dv_dict d "structure_type") as [v|] eqn:E; [|contradiction].
  destruct (I4 _ eq_refl) as (t & -> & A & _ & B). exists t. auto.
Qed.

(** generate_data needs set_parameters and set_geometry first: without one of them it raises
    and is_data_generated is what it was. *)
Theorem C91_data_need_parameters_and_geometry : forall e d Nf Np s_min s_max d' r, dev_history e d ->
  generate_data e Nf Np s_min s_max d = (d', r) ->
  (~ flag d "are_parameters_set" \/ ~ flag d "is_geometry_set") ->
  (exists x, r = Raise x) /\ dv_dict d' "is_data_generated" = dv_dict d "is_data_generated".
Proof.
  intros e d Nf Np a b d' r Hd H Hno. assert (I := history_inv _ _ Hd).
  destruct r as [[]|x]; [exfalso; destruct (generate_ok _ _ _ _ _ _ _ I H) as (P & G & _); destruct Hno; contradiction|].
  split; [exists x; reflexivity|]. unfold generate_data, bind in H.
  destruct (dev_index_shift e d) as [d1 [[]|]] eqn:H1; assert (O1 := proj1 (only_shift e _ _ _ H1) "is_data_generated" ltac:(isnt)); [|injection H as <- _; exact O1].
  destruct (calc_transmissions d1) as [d2 [[]|]] eqn:H2; assert (O2 := proj1 (only_trans _ _ _ H2) "is_data_generated" ltac:(isnt)); [|injection H as <- _; congruence].
  destruct (freq_scan e Nf d2) as [d3 [[]|]] eqn:H3; assert (O3 := proj1 (only_freq e Nf _ _ _ H3) "is_data_generated" ltac:(isnt)); [|injection H as <- _; congruence].
  destruct (power_scan e Np a b d3) as [d4 [[]|]] eqn:H4; assert (O4 := proj1 (only_power e Np a b _ _ _ H4) "is_data_generated" ltac:(isnt)); [|injection H as <- _; congruence].
  unfold setattr, modS in H. discriminate.
Qed.

(** set_geometry stores its arguments under the names of the structure, in the order of the
    constructor in structures.py; with an unknown structure or a wrong number of arguments it
    raises ValueError and changes nothing. *)
Theorem C91_geometry_is_stored : forall t params d d' r, set_geometry t params d = (d', r) ->
  (List.In t ["two_port"; "three_port"; "ortho_port"] -> List.length params = List.length (arguments_of t) ->
     r = Ok tt /\ dv_dict d' "structure_type" = Some (VStr t) /\ flag d' "is_geometry_set" /\
     (forall i n, List.nth_error (arguments_of t) i = Some n -> dv_dict d' n = List.nth_error params i)) /\
  (~ List.In t ["two_port"; "three_port"; "ortho_port"] \/ List.length params <> List.length (arguments_of t) -> r = Raise ValueError /\ d' = d) /\
  (forall n, ~ List.In n ("structure_type" :: "is_geometry_set" :: arguments_of t) -> dv_dict d' n = dv_dict d n).
Proof.
  intros t ps d d' r H. destruct (geometry_cases _ _ _ _ _ H) as (_ & _ & _ & [(Ht & Hl & Hr & HA & HT & HG & HO)|(Hn & Hr & ->)]).
  - split; [intros _ _; repeat (split; [assumption|]); exact HA|]. split; [intros [N|N]; contradiction|exact HO].
  - split; [intros A B; exfalso; apply Hn; split; assumption|]. split; [auto|reflexivity].
Qed.

(** A new device: it has the length unit and copies of the simulation and the optimization; Ez is
    the linear field of the simulation (the default solver applied to its equation), Ez_nl what
    the default nonlinear solver returns for it; nothing is set or generated. *)
Theorem C91_new_device : forall e s o so d, Device e s o so = Ok d -> s_pol s = PolEz ->
  dv_dict d "L0" = Some (VNum (s_L0 s)) /\ same_problem s (dv_sim d) /\ dv_opt d = o /\ dv_osim d = so /\
  (exists X, solver_direct e (s_M s) (s_A s) (rhs s) (DEFAULT_SOLVER e) = Ok X /\ dv_dict d "Ez" = Some (VField (Some X))) /\
  (exists t hx hy G conv, same_problem s t /\ solve_fields_nl_default e t = (dv_sim d, Ok (hx, hy, G, conv)) /\ dv_dict d "Ez_nl" = Some (VField (Some G))) /\
  dv_dict d "are_parameters_set" = Some (VBool false) /\ dv_dict d "is_geometry_set" = Some (VBool false) /\ dv_dict d "is_data_generated" = Some (VBool false).
Proof.
  intros e s o so d H HP. unfold Device, setattr, modS, bind, getS, on_sim in H. cbn [dv_sim dv_opt dv_osim dv_dict] in H.
  destruct (solve_fields e false false s) as [s1 [F|]] eqn:E1; [|discriminate]. cbn [dv_sim dv_opt dv_osim dv_dict] in H.
  destruct (solve_fields_nl_default e s1) as [s2 [[G c]|]] eqn:E2; [|discriminate]. injection H as <-. unfold flag. cbn [dv_sim dv_opt dv_osim dv_dict String.eqb Ascii.eqb Bool.eqb].
  assert (HS : compute_index_shift e s = (s2, snd (compute_index_shift e s))) by (unfold compute_index_shift, bind; rewrite E1, E2; reflexivity).
  assert (HS2 : exists a, snd (compute_index_shift e s) = Ok a) by (unfold compute_index_shift, bind; rewrite E1, E2; eexists; reflexivity).
  destruct HS2 as [a Ha]. rewrite Ha in HS. destruct (shift_fields _ _ _ _ HS) as (SP & (t & t' & F' & d1 & S1 & Q1 & Q2) & (t2 & G2 & c2 & d2 & S2 & Q3 & Q4)).
  split; [reflexivity|]. split; [exact SP|]. split; [reflexivity|]. split; [reflexivity|]. split; [|split; [|repeat split; reflexivity]].
  - apply solve_fields_lin_state in Q1 as (_ & [(? & _)|(_ & X & HX & _ & R)]); [discriminate|]. cbv zeta in R. injection R as ->.
    destruct (same_system _ _ S1) as (M1 & A1 & _). destruct (same_rhs _ _ S1) as (R1 & _). rewrite M1, A1, R1 in HX. exists X. split; [exact HX|]. rewrite Q2, HP. reflexivity.
  - destruct G2 as [[hx hy] X2]. exists t2, hx, hy, X2, c2. split; [exact S2|]. split; [exact Q3|]. rewrite Q4, HP. reflexivity.
Qed.

(** set_parameters stores its arguments, the angular frequency and the size of the grid, or
    raises ZeroDivisionError (wavelength, pixel or unit 0) *)
Theorem C91_parameters_are_stored : forall e lambda0 dl NPML chi3 eps_m amp d d', dev_history e d ->
  set_parameters lambda0 dl NPML chi3 eps_m amp d = (d', Ok tt) ->
  flag d' "are_parameters_set" /\
  dv_dict d' "lambda0" = Some (VNum lambda0) /\ dv_dict d' "omega" = Some (VNum (2 * PI * (3 * 10 ^ 8) / lambda0)%R) /\
  dv_dict d' "dl" = Some (VNum dl) /\ dv_dict d' "NPML" = Some (VInts NPML) /\ dv_dict d' "chi3" = Some (VNum chi3) /\
  dv_dict d' "eps_m" = Some (VNum eps_m) /\ dv_dict d' "source_amp" = Some (VNum amp) /\
  dv_dict d' "Nx" = Some (VInt (Z.of_nat (s_Nx (dv_sim d)))) /\ dv_dict d' "Ny" = Some (VInt (Z.of_nat (s_Ny (dv_sim d)))) /\
  lambda0 <> 0%R /\ dl <> 0%R /\
  dv_dict d' "nx" = Some (VInt (Z.of_nat (s_Nx (dv_sim d) / 2))) /\ dv_dict d' "ny" = Some (VInt (Z.of_nat (s_Ny (dv_sim d) / 2))) /\
  (exists v L0, dv_dict d "L0" = Some v /\ as_num v = Ok L0 /\ L0 <> 0%R /\ dv_dict d' "grids_per_lamda" = Some (VNum (lambda0 / dl / L0)%R)) /\
  dv_sim d' = dv_sim d /\ dv_opt d' = dv_opt d /\ dv_osim d' = dv_osim d.
Proof.
  intros e lambda0 dl NPML chi3 eps_m amp d d' _ H.
  destruct (parameters_cases _ _ _ _ _ _ _ _ _ H) as (E1 & E2 & E3 & [(L0 & f & EL & Ef & A & B & Hf & _ & _ & ED)|[[x X] _]]); [|discriminate].
  unfold flag. rewrite ED. do 12 (split; [first [reflexivity|assumption]|]). split; [reflexivity|]. split; [reflexivity|]. split; [|auto]. exists L0, f. auto.
Qed.

(* ------------------------------------------------------------------ *)
(** ** The values stored by calc_transmissions *)

Definition geo_keys : list string := ["NPML"; "l"; "dl"; "d"; "H"; "nx"; "ny"; "Nx"; "Ny"].
(** m reads the geometry and writes nothing *)
Definition reads {A} (m : St device A) : Prop :=
  (forall d, fst (m d) = d) /\ forall d d', (forall k, List.In k geo_keys -> dv_dict d' k = dv_dict d k) -> snd (m d') = snd (m d).
Lemma reads_bind {A B} (m : St device A) (f : A -> St device B) : reads m -> (forall a, reads (f a)) -> reads (bind m f).
Proof.
  intros [M1 M2] Hf. split.
  - intro d. unfold bind. specialize (M1 d). destruct (m d) as [d1 [a|x]]; cbn [fst] in *; subst; [apply (proj1 (Hf a))|reflexivity].
  - intros d d' Hd. unfold bind. assert (A1 := M1 d). assert (A2 := M1 d'). specialize (M2 d d' Hd).
    destruct (m d) as [d1 r], (m d') as [d1' r']. cbn [fst snd] in *. subst. destruct r as [a|x]; [|reflexivity]. apply (proj2 (Hf a)). exact Hd.
Qed.
Lemma reads_ret {A} (a : A) : reads (ret a). Proof. split; reflexivity. Qed.
Lemma reads_lift {A} (a : res A) : reads (lift a). Proof. split; reflexivity. Qed.
Lemma reads_getattr n : List.In n geo_keys -> reads (getattr n).
Proof. intro Hn. unfold getattr. split; [intro d; destruct (dv_dict d n); reflexivity|]. intros d d' Hd. rewrite (Hd n Hn). destruct (dv_dict d n); reflexivity. Qed.
Ltac readsK := repeat first [apply reads_ret | apply reads_lift | apply reads_getattr; solve [inK] | apply reads_bind; [|intro]].
Lemma reads_two_out : reads args_two_out. Proof. unfold args_two_out. readsK. Qed.
Lemma reads_two_in : reads args_two_in. Proof. unfold args_two_in. readsK. Qed.
Lemma reads_three b : reads (args_three b). Proof. unfold args_three. readsK. Qed.
Lemma reads_right : reads args_ortho_right. Proof. unfold args_ortho_right. readsK. Qed.
Lemma reads_top : reads args_ortho_top. Proof. unfold args_ortho_top. readsK. Qed.

(** a flux probe placed by [args] in the geometry of d, on its simulation *)
Definition measured (d : device) (args : St device (string * (Z * Z) * Z)) (nl : bool) : res R :=
  match snd (args d) with
  | Ok a => flux_probe (fst (fst a)) (snd (fst a)) (snd a) nl (dv_sim d)
  | Raise x => Raise x
  end.
(** d' is d with attributes outside the geometry changed *)
Definition agree (d d' : device) : Prop := dv_sim d' = dv_sim d /\ forall k, List.In k geo_keys -> dv_dict d' k = dv_dict d k.
Lemma agree_refl d : agree d d. Proof. split; reflexivity. Qed.
Lemma agree_set d d' n v : ~ List.In n geo_keys -> agree d d' ->
  agree d (mkDev (dv_sim d') (dv_opt d') (dv_osim d') (fun k => if String.eqb k n then Some v else dv_dict d' k)).
Proof.
  intros Hn [A B]. split; [exact A|]. intros k Hk. cbn [dv_dict]. destruct (String.eqb_spec k n) as [->|]; [contradiction|exact (B k Hk)].
Qed.
Lemma measured_agree d d' a nl : reads a -> agree d d' -> measured d' a nl = measured d a nl.
Proof. intros [_ R] [A B]. unfold measured. rewrite (R _ _ B), A. reflexivity. Qed.
Lemma probe_ok n a nl d d' w : reads a -> ~ List.In n geo_keys -> probe_to n a nl d = (d', Ok w) ->
  measured d a nl = Ok w /\ d' = mkDev (dv_sim d) (dv_opt d) (dv_osim d) (fun k => if String.eqb k n then Some (VNum w) else dv_dict d k).
Proof.
  intros [R1 R2] Hn H. unfold probe_to, bind, getS, lift, setattr, modS, ret in H. unfold measured. specialize (R1 d). destruct (a d) as [d1 [x|]]; cbn [fst snd] in *; [|discriminate].
  subst d1. destruct (flux_probe (fst (fst x)) (snd (fst x)) (snd x) nl (dv_sim d)) as [w'|]; [|discriminate]. injection H as <- <-. split; reflexivity.
Qed.
Lemma probe_run n a nl d w : reads a -> measured d a nl = Ok w ->
  probe_to n a nl d = (mkDev (dv_sim d) (dv_opt d) (dv_osim d) (fun k => if String.eqb k n then Some (VNum w) else dv_dict d k), Ok w).
Proof.
  intros [R1 R2] H. unfold probe_to, bind, getS, lift, setattr, modS, ret. unfold measured in H. specialize (R1 d). destruct (a d) as [d1 [x|]]; cbn [fst snd] in *; [|discriminate].
  subst d1. rewrite H. reflexivity.
Qed.
Lemma take_ok d d' : take_W_in d = (d', Ok tt) ->
  d' = mkDev (dv_sim d) (dv_opt d) (dv_osim d) (fun k => if String.eqb k "W_in" then Some (match s_W_in (dv_sim d) with Val W => VNum W | _ => VNone end) else dv_dict d k).
Proof. unfold take_W_in, bind, getS, raise, setattr, modS. destruct (s_W_in (dv_sim d)); intro H; [discriminate|injection H as <-; reflexivity|injection H as <-; reflexivity]. Qed.
Lemma over_ok w d d' q : over_W_in w d = (d', Ok q) -> exists W, dv_dict d "W_in" = Some (VNum W) /\ q = ratio w W /\ d' = d.
Proof.
  unfold over_W_in, bind, getattr, lift. destruct (dv_dict d "W_in") as [[]|]; intro H; try discriminate. injection H as <- <-. eexists. auto.
Qed.

Lemma trans_two_ok d d' : calc_trans_two d = (d', Ok tt) ->
  exists W wl wn, s_W_in (dv_sim d) = Val W /\ measured d args_two_out false = Ok wl /\ measured d args_two_out true = Ok wn /\
    dv_dict d' "W_in" = Some (VNum W) /\ dv_dict d' "T_lin" = Some (VQuot (ratio wl W)) /\ dv_dict d' "T_nl" = Some (VQuot (ratio wn W)) /\ agree d d' /\
    dv_dict d' "W_out_lin" = Some (VNum wl) /\ dv_dict d' "W_out_nl" = Some (VNum wn) /\
    exists il inn, measured d args_two_in false = Ok il /\ measured d args_two_in true = Ok inn /\
      dv_dict d' "W_in_lin" = Some (VNum il) /\ dv_dict d' "W_in_nl" = Some (VNum inn).
Proof.
  unfold calc_trans_two. intro H.
  destruct (bind_ok _ _ _ _ _ H) as (d1 & [] & H1 & HA). clear H. apply take_ok in H1.
  destruct (bind_ok _ _ _ _ _ HA) as (d2 & w1 & H2 & HB). clear HA. apply probe_ok in H2; [|apply reads_two_out|isnt]. destruct H2 as [M1 E2].
  destruct (bind_ok _ _ _ _ _ HB) as (d3 & w2 & H3 & HA). clear HB. apply probe_ok in H3; [|apply reads_two_in|isnt]. destruct H3 as [M2 E3].
  destruct (bind_ok _ _ _ _ _ HA) as (d4 & q1 & H4 & HB). clear HA. apply over_ok in H4. destruct H4 as (W & W1 & -> & ->).
  destruct (bind_ok _ _ _ _ _ HB) as (d5 & [] & H5 & HA). clear HB. unfold setattr, modS in H5. injection H5 as E5.
  destruct (bind_ok _ _ _ _ _ HA) as (d6 & w3 & H6 & HB). clear HA. apply probe_ok in H6; [|apply reads_two_out|isnt]. destruct H6 as [M3 E6].
  destruct (bind_ok _ _ _ _ _ HB) as (d7 & w4 & H7 & HA). clear HB. apply probe_ok in H7; [|apply reads_two_in|isnt]. destruct H7 as [M4 E7].
  destruct (bind_ok _ _ _ _ _ HA) as (d8 & q2 & H8 & HB). clear HA. apply over_ok in H8. destruct H8 as (W' & W2 & -> & ->).
  unfold setattr, modS in HB. injection HB as E9.
  assert (A1 : agree d d1) by (rewrite H1; apply agree_set; [isnt|apply agree_refl]).
  assert (A2 : agree d d2) by (rewrite E2; apply agree_set; [isnt|exact A1]).
  assert (A3 : agree d d3) by (rewrite E3; apply agree_set; [isnt|exact A2]).
  assert (A5 : agree d d5) by (rewrite <- E5; apply agree_set; [isnt|exact A3]).
  assert (A6 : agree d d6) by (rewrite E6; apply agree_set; [isnt|exact A5]).
  assert (A7 : agree d d7) by (rewrite E7; apply agree_set; [isnt|exact A6]).
  assert (A9 : agree d d') by (rewrite <- E9; apply agree_set; [isnt|exact A7]).
  rewrite (measured_agree _ _ _ _ reads_two_out A1) in M1. rewrite (measured_agree _ _ _ _ reads_two_out A5) in M3.
  assert (V3 : dv_dict d3 "W_in" = dv_dict d1 "W_in") by (rewrite E3, E2; reflexivity).
  assert (V7 : dv_dict d7 "W_in" = dv_dict d1 "W_in") by (rewrite E7, E6, <- E5; cbn [dv_dict String.eqb Ascii.eqb Bool.eqb]; exact V3).
  assert (V1 : dv_dict d1 "W_in" = Some (match s_W_in (dv_sim d) with Val W => VNum W | _ => VNone end)) by (rewrite H1; reflexivity).
  rewrite V3, V1 in W1. rewrite V7, V1 in W2. destruct (s_W_in (dv_sim d)) as [| |W0]; try discriminate.
  injection W1 as <-. injection W2 as <-. exists W0, w1, w3. split; [reflexivity|]. split; [exact M1|]. split; [exact M3|].
  split; [rewrite <- E9; cbn [dv_dict String.eqb Ascii.eqb Bool.eqb]; rewrite V7; exact V1|]. split; [|split; [rewrite <- E9; reflexivity|split; [exact A9|]]].
  { rewrite <- E9, E7, E6, <- E5. reflexivity. }
  rewrite (measured_agree _ _ _ _ reads_two_in A2) in M2. rewrite (measured_agree _ _ _ _ reads_two_in A6) in M4.
  split; [rewrite <- E9, E7, E6, <- E5, E3, E2; reflexivity|]. split; [rewrite <- E9, E7, E6; reflexivity|].
  exists w2, w4. split; [exact M2|]. split; [exact M4|]. split; [rewrite <- E9, E7, E6, <- E5, E3; reflexivity|rewrite <- E9, E7; reflexivity].
Qed.

Lemma four_ok n1 n2 n3 n4 a1 a2 a3 a4 b1 b2 b3 b4 (k : R -> R -> R -> R -> St device unit) d d' :
  reads a1 -> reads a2 -> reads a3 -> reads a4 -> (forall n, List.In n [n1; n2; n3; n4] -> ~ List.In n geo_keys /\ n <> "W_in") -> List.NoDup [n1; n2; n3; n4] ->
  (take_W_in ;;; w1 <- probe_to n1 a1 b1 ;; w2 <- probe_to n2 a2 b2 ;; w3 <- probe_to n3 a3 b3 ;; w4 <- probe_to n4 a4 b4 ;; k w1 w2 w3 w4) d = (d', Ok tt) ->
  exists w1 w2 w3 w4 d5, measured d a1 b1 = Ok w1 /\ measured d a2 b2 = Ok w2 /\ measured d a3 b3 = Ok w3 /\ measured d a4 b4 = Ok w4 /\
    agree d d5 /\ dv_dict d5 "W_in" = Some (match s_W_in (dv_sim d) with Val W => VNum W | _ => VNone end) /\ k w1 w2 w3 w4 d5 = (d', Ok tt) /\
    dv_dict d5 n1 = Some (VNum w1) /\ dv_dict d5 n2 = Some (VNum w2) /\ dv_dict d5 n3 = Some (VNum w3) /\ dv_dict d5 n4 = Some (VNum w4).
Proof.
  intros R1 R2 R3 R4 HN HD H.
  destruct (HN n1 ltac:(inK)) as [N1 W1]. destruct (HN n2 ltac:(inK)) as [N2 W2]. destruct (HN n3 ltac:(inK)) as [N3 W3]. destruct (HN n4 ltac:(inK)) as [N4 W4].
  destruct (bind_ok _ _ _ _ _ H) as (d1 & [] & H1 & HA). clear H. apply take_ok in H1.
  destruct (bind_ok _ _ _ _ _ HA) as (d2 & w1 & H2 & HB). clear HA. apply probe_ok in H2; [|assumption|assumption]. destruct H2 as [M1 E2].
  destruct (bind_ok _ _ _ _ _ HB) as (d3 & w2 & H3 & HA). clear HB. apply probe_ok in H3; [|assumption|assumption]. destruct H3 as [M2 E3].
  destruct (bind_ok _ _ _ _ _ HA) as (d4 & w3 & H4 & HB). clear HA. apply probe_ok in H4; [|assumption|assumption]. destruct H4 as [M3 E4].
  destruct (bind_ok _ _ _ _ _ HB) as (d5 & w4 & H5 & HA). clear HB. apply probe_ok in H5; [|assumption|assumption]. destruct H5 as [M4 E5].
  assert (A1 : agree d d1) by (rewrite H1; apply agree_set; [isnt|apply agree_refl]).
  assert (A2 : agree d d2) by (rewrite E2; apply agree_set; [assumption|exact A1]).
  assert (A3 : agree d d3) by (rewrite E3; apply agree_set; [assumption|exact A2]).
  assert (A4 : agree d d4) by (rewrite E4; apply agree_set; [assumption|exact A3]).
  assert (A5 : agree d d5) by (rewrite E5; apply agree_set; [assumption|exact A4]).
  rewrite (measured_agree _ _ _ _ R1 A1) in M1. rewrite (measured_agree _ _ _ _ R2 A2) in M2. rewrite (measured_agree _ _ _ _ R3 A3) in M3. rewrite (measured_agree _ _ _ _ R4 A4) in M4.
  exists w1, w2, w3, w4, d5. repeat (split; [assumption|]). split.
  2: { split; [exact HA|]. inversion HD as [|? ? D1 HD2]; subst. inversion HD2 as [|? ? D2 HD3]; subst. inversion HD3 as [|? ? D3 HD4]; subst. cbn [List.In] in D1, D2, D3.
       cbn [dv_dict]. rewrite !String.eqb_refl.
       assert (NE : forall a b : string, a <> b -> String.eqb a b = false) by (intros a b Hab; apply String.eqb_neq; exact Hab).
       repeat (rewrite NE by (intro; subst; tauto)). auto. }
  rewrite E5, E4, E3, E2, H1. cbn [dv_dict].
  destruct (String.eqb_spec "W_in" n4) as [E|_]; [congruence|]. destruct (String.eqb_spec "W_in" n3) as [E|_]; [congruence|].
  destruct (String.eqb_spec "W_in" n2) as [E|_]; [congruence|]. destruct (String.eqb_spec "W_in" n1) as [E|_]; [congruence|]. reflexivity.
Qed.
Lemma quotients_ok x1 x2 x3 x4 d d' :
  (q1 <- over_W_in x1 ;; q2 <- over_W_in x2 ;; q3 <- over_W_in x3 ;; q4 <- over_W_in x4 ;; setattr "S" (VTable [[q1; q2]; [q3; q4]])) d = (d', Ok tt) ->
  exists W, dv_dict d "W_in" = Some (VNum W) /\ d' = mkDev (dv_sim d) (dv_opt d) (dv_osim d) (fun k => if String.eqb k "S" then Some (VTable [[ratio x1 W; ratio x2 W]; [ratio x3 W; ratio x4 W]]) else dv_dict d k).
Proof.
  intro H. destruct (bind_ok _ _ _ _ _ H) as (d1 & q1 & H1 & HA). clear H. apply over_ok in H1. destruct H1 as (W & E & -> & ->).
  destruct (bind_ok _ _ _ _ _ HA) as (d2 & q2 & H2 & HB). clear HA. apply over_ok in H2. destruct H2 as (W2 & E2 & -> & ->).
  destruct (bind_ok _ _ _ _ _ HB) as (d3 & q3 & H3 & HA). clear HB. apply over_ok in H3. destruct H3 as (W3 & E3 & -> & ->).
  destruct (bind_ok _ _ _ _ _ HA) as (d4 & q4 & H4 & HB). clear HA. apply over_ok in H4. destruct H4 as (W4 & E4 & -> & ->).
  rewrite E in E2, E3, E4. injection E2 as <-. injection E3 as <-. injection E4 as <-. exists W. split; [exact E|]. unfold setattr, modS in HB. injection HB as <-. reflexivity.
Qed.
Lemma trans_three_ok d d' : calc_trans_three d = (d', Ok tt) ->
  exists W tl bl tn bn, s_W_in (dv_sim d) = Val W /\ measured d (args_three true) false = Ok tl /\ measured d (args_three false) false = Ok bl /\
    measured d (args_three true) true = Ok tn /\ measured d (args_three false) true = Ok bn /\
    dv_dict d' "W_in" = Some (VNum W) /\ dv_dict d' "S" = Some (VTable [[ratio tl W; ratio tn W]; [ratio bl W; ratio bn W]]) /\ agree d d' /\
    dv_dict d' "W_top_lin" = Some (VNum tl) /\ dv_dict d' "W_bot_lin" = Some (VNum bl) /\ dv_dict d' "W_top_nl" = Some (VNum tn) /\ dv_dict d' "W_bot_nl" = Some (VNum bn).
Proof.
  unfold calc_trans_three. intro H. apply four_ok in H; try apply reads_three; try solve [repeat constructor; cbn [List.In]; intuition discriminate].
  2: { intros n Hn. cbn [List.In] in Hn. repeat destruct Hn as [<-|Hn]; try contradiction; (split; [isnt|discriminate]). }
  destruct H as (tl & bl & tn & bn & d5 & M1 & M2 & M3 & M4 & A & W5 & H & V1 & V2 & V3 & V4). apply quotients_ok in H. destruct H as (W & E & ->). rewrite W5 in E.
  destruct (s_W_in (dv_sim d)) as [| |W0]; try discriminate. injection E as <-. exists W0, tl, bl, tn, bn. do 5 (split; [assumption || reflexivity|]).
  cbn [dv_dict String.eqb Ascii.eqb Bool.eqb]. split; [exact W5|]. split; [reflexivity|]. split; [apply agree_set; [isnt|exact A]|auto].
Qed.
Lemma trans_ortho_ok d d' : calc_trans_ortho d = (d', Ok tt) ->
  exists W rl tl rn tn, s_W_in (dv_sim d) = Val W /\ measured d args_ortho_right false = Ok rl /\ measured d args_ortho_top false = Ok tl /\
    measured d args_ortho_right true = Ok rn /\ measured d args_ortho_top true = Ok tn /\
    dv_dict d' "W_in" = Some (VNum W) /\ dv_dict d' "S" = Some (VTable [[ratio tl W; ratio rl W]; [ratio tn W; ratio rn W]]) /\ agree d d' /\
    dv_dict d' "W_right_lin" = Some (VNum rl) /\ dv_dict d' "W_top_lin" = Some (VNum tl) /\ dv_dict d' "W_right_nl" = Some (VNum rn) /\ dv_dict d' "W_top_nl" = Some (VNum tn).
Proof.
  unfold calc_trans_ortho. intro H. apply four_ok in H; try apply reads_right; try apply reads_top; try solve [repeat constructor; cbn [List.In]; intuition discriminate].
  2: { intros n Hn. cbn [List.In] in Hn. repeat destruct Hn as [<-|Hn]; try contradiction; (split; [isnt|discriminate]). }
  destruct H as (rl & tl & rn & tn & d5 & M1 & M2 & M3 & M4 & A & W5 & H & V1 & V2 & V3 & V4). apply quotients_ok in H. destruct H as (W & E & ->). rewrite W5 in E.
  destruct (s_W_in (dv_sim d)) as [| |W0]; try discriminate. injection E as <-. exists W0, rl, tl, rn, tn. do 5 (split; [assumption || reflexivity|]).
  cbn [dv_dict String.eqb Ascii.eqb Bool.eqb]. split; [exact W5|]. split; [reflexivity|]. split; [apply agree_set; [isnt|exact A]|auto].
Qed.

(** the attribute [n] is the number x *)
Definition number (d : device) (n : string) (x : R) : Prop := exists v, dv_dict d n = Some v /\ as_num v = Ok x.
Lemma py_int_half n : py_int (IZR (Z.of_nat n) / 2) = Z.of_nat (n / 2).
Proof.
  apply PropsStruct.py_int_unique. rewrite <- INR_IZR_INZ.
  assert (H := Nat.div_mod n 2 ltac:(lia)). assert (H2 := Nat.mod_upper_bound n 2 ltac:(lia)).
  assert (E : (INR n = 2 * INR (n / 2) + INR (n mod 2))%R) by (rewrite H at 1; rewrite plus_INR, mult_INR; simpl (INR 2); lra).
  assert (B : (0 <= INR (n mod 2) <= 1)%R) by (split; [apply pos_INR|replace 1%R with (INR 1) by reflexivity; apply le_INR; lia]).
  assert (P := pos_INR (n / 2)). unfold PropsStruct.truncated. rewrite <- INR_IZR_INZ. split; intro; lra.
Qed.
Lemma pixels_val a k d x dl : number d a x -> number d "dl" dl ->
  pixels a k d = (d, if Req_EM_T dl 0 then Raise ZeroDivisionError else Ok (py_int (x / k / dl))).
Proof.
  intros (v & Hv & Ev) (u & Hu & Eu). unfold pixels, getnum, getattr, bind, lift, ret. rewrite Hv, Ev, Hu, Eu. unfold py_div. destruct (Req_EM_T dl 0); reflexivity.
Qed.
Lemma far_val i d ns n l dl : dv_dict d "NPML" = Some (VInts ns) -> List.nth_error ns i = Some n -> number d "l" l -> number d "dl" dl ->
  far i d = (d, if Req_EM_T dl 0 then Raise ZeroDivisionError else Ok (- n - py_int (l / 2 / dl))%Z).
Proof.
  intros HN Hi Hl Hd. unfold far, getitem, bind, getattr, lift, ret. rewrite HN, Hi, (pixels_val _ _ _ _ _ Hl Hd). destruct (Req_EM_T dl 0); reflexivity.
Qed.

(** where the probes are placed *)
Section Placed.
Variables (e : env) (d : device) (ns : list Z) (l dl : R).
Hypothesis Hd : dev_history e d.
Hypothesis HN : dv_dict d "NPML" = Some (VInts ns).
Hypothesis Hl : number d "l" l.
Hypothesis Hdl : number d "dl" dl.
Notation s := (dv_sim d).
Notation mid n := (Z.of_nat (n / 2)).
Notation gap := (py_int (l / 2 / dl)).

Lemma placed_two_out nl w : measured d args_two_out nl = Ok w -> exists n0, List.nth_error ns 0 = Some n0 /\ dl <> 0%R /\
  flux_probe "x" (- (n0 + gap), mid (s_Ny s))%Z (mid (s_Ny s)) nl s = Ok w.
Proof.
  intro H. unfold measured in H. destruct (args_two_out d) as [d1 [a|]] eqn:E; cbn [snd] in H; [|discriminate].
  assert (Hny := needs_two_out _ _ _ E). destruct (di_ny _ (history_inv _ _ Hd) Hny) as (_ & _ & ENy & _ & Eny).
  unfold args_two_out in E. destruct (bind_ok _ _ _ _ _ E) as (d2 & c & E1 & _).
  destruct (List.nth_error ns 0) as [n0|] eqn:E0; [|unfold far, getitem, bind, getattr, lift in E1; rewrite HN, E0 in E1; discriminate].
  assert (F := far_val 0 d ns n0 l dl HN E0 Hl Hdl). unfold bind at 1 in E. rewrite F in E. rewrite F in E1. destruct (Req_EM_T dl 0) as [Z0|Z0]; [discriminate|].
  unfold getint, half_Ny, getnum, bind, getattr, lift, ret in E. rewrite Eny in E. cbv iota beta in E. rewrite ENy in E. cbn [as_num] in E. rewrite py_int_half in E. injection E as <- <-.
  exists n0. split; [reflexivity|]. split; [exact Z0|]. cbn [fst snd] in H. replace (- (n0 + gap))%Z with (- n0 - gap)%Z by lia. exact H.
Qed.
Lemma placed_two_in nl w : has d "ny" -> measured d args_two_in nl = Ok w -> exists n0, List.nth_error ns 0 = Some n0 /\ dl <> 0%R /\
  flux_probe "x" (n0 + py_int (2 * l / 3 / dl), mid (s_Ny s))%Z (mid (s_Ny s)) nl s = Ok w.
Proof.
  intros Hny H. unfold measured in H. destruct (args_two_in d) as [d1 [a|]] eqn:E; cbn [snd] in H; [|discriminate].
  destruct (di_ny _ (history_inv _ _ Hd) Hny) as (_ & _ & ENy & _ & Eny).
  destruct Hl as (v & Hv & Ev). destruct Hdl as (u & Hu & Eu).
  unfold args_two_in, getitem, pixels23, getint, half_Ny, getnum, bind, getattr, lift, ret in E. rewrite HN in E.
  destruct (List.nth_error ns 0) as [n0|] eqn:E0; [|discriminate]. rewrite Hv in E. cbv iota beta in E. rewrite Ev in E. cbv iota beta in E. rewrite Hu in E. cbv iota beta in E. rewrite Eu in E.
  unfold py_div in E. destruct (Req_EM_T dl 0) as [Z0|Z0]; [discriminate|]. rewrite Eny in E. cbv iota beta in E. rewrite ENy in E. cbn [as_num] in E. rewrite py_int_half in E. injection E as <- <-.
  exists n0. split; [reflexivity|]. split; [exact Z0|]. exact H.
Qed.
Lemma placed_three (up : bool) nl w dd H : number d "d" dd -> number d "H" H -> measured d (args_three up) nl = Ok w -> exists n0, List.nth_error ns 0 = Some n0 /\ dl <> 0%R /\
  flux_probe "x" (- (n0 + gap), if up then mid (s_Ny s) + py_int (dd / 2 / dl) else mid (s_Ny s) - py_int (dd / 2 / dl))%Z (py_int (H / 2 / dl)) nl s = Ok w.
Proof.
  intros Hdd HH M. unfold measured in M. destruct (args_three up d) as [d1 [a|]] eqn:E; cbn [snd] in M; [|discriminate].
  assert (Hny := needs_three up _ _ _ E). destruct (di_ny _ (history_inv _ _ Hd) Hny) as (_ & _ & ENy & _ & Eny).
  unfold args_three in E. destruct (bind_ok _ _ _ _ _ E) as (d2 & c & E1 & _).
  destruct (List.nth_error ns 0) as [n0|] eqn:E0; [|unfold far, getitem, bind, getattr, lift in E1; rewrite HN, E0 in E1; discriminate].
  assert (F := far_val 0 d ns n0 l dl HN E0 Hl Hdl). unfold bind at 1 in E. rewrite F in E. rewrite F in E1. destruct (Req_EM_T dl 0) as [Z0|Z0] eqn:EZ; [discriminate|].
  assert (P1 := pixels_val "d" 2 d dd dl Hdd Hdl). assert (P2 := pixels_val "H" 2 d H dl HH Hdl). rewrite EZ in P1, P2.
  unfold getint, bind, getattr, lift, ret in E. rewrite Eny in E. cbv iota beta in E. rewrite P1, P2 in E. injection E as <- <-.
  exists n0. split; [reflexivity|]. split; [exact Z0|]. cbn [fst snd] in M. replace (- (n0 + gap))%Z with (- n0 - gap)%Z by lia. exact M.
Qed.
Lemma placed_right nl w H : number d "H" H -> measured d args_ortho_right nl = Ok w -> exists n0, List.nth_error ns 0 = Some n0 /\ dl <> 0%R /\
  flux_probe "x" (- (n0 + gap), mid (s_Ny s))%Z (py_int (H / 2 / dl)) nl s = Ok w.
Proof.
  intros HH M. unfold measured in M. destruct (args_ortho_right d) as [d1 [a|]] eqn:E; cbn [snd] in M; [|discriminate].
  assert (Hny := needs_right _ _ _ E). destruct (di_ny _ (history_inv _ _ Hd) Hny) as (_ & _ & ENy & _ & Eny).
  unfold args_ortho_right in E. destruct (bind_ok _ _ _ _ _ E) as (d2 & c & E1 & _).
  destruct (List.nth_error ns 0) as [n0|] eqn:E0; [|unfold far, getitem, bind, getattr, lift in E1; rewrite HN, E0 in E1; discriminate].
  assert (F := far_val 0 d ns n0 l dl HN E0 Hl Hdl). unfold bind at 1 in E. rewrite F in E. rewrite F in E1. destruct (Req_EM_T dl 0) as [Z0|Z0] eqn:EZ; [discriminate|].
  assert (P2 := pixels_val "H" 2 d H dl HH Hdl). rewrite EZ in P2.
  unfold getint, bind, getattr, lift, ret in E. rewrite Eny in E. cbv iota beta in E. rewrite P2 in E. injection E as <- <-.
  exists n0. split; [reflexivity|]. split; [exact Z0|]. cbn [fst snd] in M. replace (- (n0 + gap))%Z with (- n0 - gap)%Z by lia. exact M.
Qed.
Lemma placed_top nl w H : has d "ny" -> number d "H" H -> measured d args_ortho_top nl = Ok w -> exists n1, List.nth_error ns 1 = Some n1 /\ dl <> 0%R /\
  flux_probe "y" (mid (s_Nx s), - (n1 + gap))%Z (py_int (H / 2 / dl)) nl s = Ok w.
Proof.
  intros Hny HH M. unfold measured in M. destruct (args_ortho_top d) as [d1 [a|]] eqn:E; cbn [snd] in M; [|discriminate].
  destruct (di_ny _ (history_inv _ _ Hd) Hny) as (_ & _ & ENy & Enx & Eny).
  unfold args_ortho_top in E. unfold bind at 1 in E. unfold getint at 1, bind at 1, getattr, lift in E. rewrite Enx in E. cbv iota beta in E.
  destruct (bind_ok _ _ _ _ _ E) as (d2 & c & E1 & _).
  destruct (List.nth_error ns 1) as [n1|] eqn:E0; [|unfold far, getitem, bind, getattr, lift in E1; rewrite HN, E0 in E1; discriminate].
  assert (F := far_val 1 d ns n1 l dl HN E0 Hl Hdl). unfold bind at 1 in E. rewrite F in E. rewrite F in E1. destruct (Req_EM_T dl 0) as [Z0|Z0] eqn:EZ; [discriminate|].
  assert (P2 := pixels_val "H" 2 d H dl HH Hdl). rewrite EZ in P2.
  unfold bind, ret in E. rewrite P2 in E. injection E as <- <-.
  exists n1. split; [reflexivity|]. split; [exact Z0|]. cbn [fst snd] in M. replace (- (n1 + gap))%Z with (- n1 - gap)%Z by lia. exact M.
Qed.
End Placed.

(* ------------------------------------------------------------------ *)
(** ** C91: the values *)

(** Two ports: T_lin and T_nl are the powers through the whole output column, linear and
    nonlinear, over the input power of the simulation. *)
Theorem C91_two_port_transmissions : forall e d d' n0 rest l dl, dev_history e d ->
  dv_dict d "structure_type" = Some (VStr "two_port") -> dv_dict d "NPML" = Some (VInts (n0 :: rest)) -> number d "l" l -> number d "dl" dl ->
  calc_transmissions d = (d', Ok tt) ->
  let s := dv_sim d in let p := (n0 + py_int (l / 2 / dl))%Z in let mid := Z.of_nat (s_Ny s / 2) in
  exists W wl wn, s_W_in s = Val W /\
    flux_probe "x" (- p, mid)%Z mid false s = Ok wl /\ flux_probe "x" (- p, mid)%Z mid true s = Ok wn /\
    dv_dict d' "W_in" = Some (VNum W) /\ dv_dict d' "T_lin" = Some (VQuot (ratio wl W)) /\ dv_dict d' "T_nl" = Some (VQuot (ratio wn W)) /\
    dv_dict d' "W_out_lin" = Some (VNum wl) /\ dv_dict d' "W_out_nl" = Some (VNum wn) /\
    let q := (n0 + py_int (2 * l / 3 / dl))%Z in
    exists il inn, flux_probe "x" (q, mid)%Z mid false s = Ok il /\ flux_probe "x" (q, mid)%Z mid true s = Ok inn /\
      dv_dict d' "W_in_lin" = Some (VNum il) /\ dv_dict d' "W_in_nl" = Some (VNum inn).
Proof.
  intros e d d' n0 rest l dl Hd Ht HN Hl Hdl H s p mid.
  assert (Hny := proj1 (trans_ok _ _ _ Ht ltac:(unfold known_type; inK) H)). unfold calc_transmissions, get_type, bind, getattr, ret in H. rewrite Ht in H.
  cbn [String.eqb Ascii.eqb Bool.eqb] in H. apply trans_two_ok in H. destruct H as (W & wl & wn & A & B & C & D & E & F & _ & G1 & G2 & il & inn & I1 & I2 & I3 & I4).
  destruct (placed_two_in _ _ _ _ _ Hd HN Hl Hdl _ _ Hny I1) as (n3 & E3 & _ & P3). destruct (placed_two_in _ _ _ _ _ Hd HN Hl Hdl _ _ Hny I2) as (n4 & E4 & _ & P4).
  cbn in E3, E4. injection E3 as <-. injection E4 as <-.
  destruct (placed_two_out _ _ _ _ _ Hd HN Hl Hdl _ _ B) as (n1 & E1 & _ & P1). destruct (placed_two_out _ _ _ _ _ Hd HN Hl Hdl _ _ C) as (n2 & E2 & _ & P2).
  cbn in E1, E2. injection E1 as <-. injection E2 as <-. exists W, wl, wn. do 8 (split; [assumption|]). exists il, inn. auto.
Qed.
(** Three ports: a row for the upper output and a row for the lower output; the first column is
    linear, the second nonlinear. *)
Theorem C91_three_port_table : forall e d d' n0 rest l dl dd H, dev_history e d ->
  dv_dict d "structure_type" = Some (VStr "three_port") -> dv_dict d "NPML" = Some (VInts (n0 :: rest)) -> number d "l" l -> number d "dl" dl ->
  number d "d" dd -> number d "H" H -> calc_transmissions d = (d', Ok tt) ->
  let s := dv_sim d in let p := (n0 + py_int (l / 2 / dl))%Z in let mid := Z.of_nat (s_Ny s / 2) in
  let h := py_int (dd / 2 / dl) in let w := py_int (H / 2 / dl) in
  exists W tl bl tn bn, s_W_in s = Val W /\
    flux_probe "x" (- p, mid + h)%Z w false s = Ok tl /\ flux_probe "x" (- p, mid - h)%Z w false s = Ok bl /\
    flux_probe "x" (- p, mid + h)%Z w true s = Ok tn /\ flux_probe "x" (- p, mid - h)%Z w true s = Ok bn /\
    dv_dict d' "S" = Some (VTable [[ratio tl W; ratio tn W]; [ratio bl W; ratio bn W]]) /\ dv_dict d' "W_in" = Some (VNum W) /\
    dv_dict d' "W_top_lin" = Some (VNum tl) /\ dv_dict d' "W_bot_lin" = Some (VNum bl) /\ dv_dict d' "W_top_nl" = Some (VNum tn) /\ dv_dict d' "W_bot_nl" = Some (VNum bn).
Proof.
  intros e d d' n0 rest l dl dd H0 Hd Ht HN Hl Hdl Hdd HH H s p mid h w. unfold calc_transmissions, get_type, bind, getattr, ret in H. rewrite Ht in H.
  cbn [String.eqb Ascii.eqb Bool.eqb] in H. apply trans_three_ok in H. destruct H as (W & tl & bl & tn & bn & A & B1 & B2 & B3 & B4 & EW & E & _ & V1 & V2 & V3 & V4).
  destruct (placed_three _ _ _ _ _ Hd HN Hl Hdl _ _ _ _ _ Hdd HH B1) as (n1 & E1 & _ & P1). destruct (placed_three _ _ _ _ _ Hd HN Hl Hdl _ _ _ _ _ Hdd HH B2) as (n2 & E2 & _ & P2).
  destruct (placed_three _ _ _ _ _ Hd HN Hl Hdl _ _ _ _ _ Hdd HH B3) as (n3 & E3 & _ & P3). destruct (placed_three _ _ _ _ _ Hd HN Hl Hdl _ _ _ _ _ Hdd HH B4) as (n4 & E4 & _ & P4).
  cbn in E1, E2, E3, E4. injection E1 as <-. injection E2 as <-. injection E3 as <-. injection E4 as <-. exists W, tl, bl, tn, bn. auto 15.
Qed.
(** Orthogonal ports: the table is the other way round: the first row is linear, the second
    nonlinear; the first column is the upper output, the second the right one. *)
Theorem C91_ortho_port_table : forall e d d' n0 n1 rest l dl H, dev_history e d ->
  dv_dict d "structure_type" = Some (VStr "ortho_port") -> dv_dict d "NPML" = Some (VInts (n0 :: n1 :: rest)) -> number d "l" l -> number d "dl" dl ->
  number d "H" H -> calc_transmissions d = (d', Ok tt) ->
  let s := dv_sim d in let p := (n0 + py_int (l / 2 / dl))%Z in let q := (n1 + py_int (l / 2 / dl))%Z in let w := py_int (H / 2 / dl) in
  exists W rl tl rn tn, s_W_in s = Val W /\
    flux_probe "x" (- p, Z.of_nat (s_Ny s / 2))%Z w false s = Ok rl /\ flux_probe "y" (Z.of_nat (s_Nx s / 2), - q)%Z w false s = Ok tl /\
    flux_probe "x" (- p, Z.of_nat (s_Ny s / 2))%Z w true s = Ok rn /\ flux_probe "y" (Z.of_nat (s_Nx s / 2), - q)%Z w true s = Ok tn /\
    dv_dict d' "S" = Some (VTable [[ratio tl W; ratio rl W]; [ratio tn W; ratio rn W]]) /\ dv_dict d' "W_in" = Some (VNum W) /\
    dv_dict d' "W_right_lin" = Some (VNum rl) /\ dv_dict d' "W_top_lin" = Some (VNum tl) /\ dv_dict d' "W_right_nl" = Some (VNum rn) /\ dv_dict d' "W_top_nl" = Some (VNum tn).
Proof.
  intros e d d' n0 n1 rest l dl H0 Hd Ht HN Hl Hdl HH H s p q w.
  assert (Hny := proj1 (trans_ok _ _ _ Ht ltac:(unfold known_type; inK) H)).
  unfold calc_transmissions, get_type, bind, getattr, ret in H. rewrite Ht in H.
  cbn [String.eqb Ascii.eqb Bool.eqb] in H. apply trans_ortho_ok in H. destruct H as (W & rl & tl & rn & tn & A & B1 & B2 & B3 & B4 & EW & E & _ & V1 & V2 & V3 & V4).
  destruct (placed_right _ _ _ _ _ Hd HN Hl Hdl _ _ _ HH B1) as (m1 & E1 & _ & P1). destruct (placed_top _ _ _ _ _ Hd HN Hl Hdl _ _ _ Hny HH B2) as (m2 & E2 & _ & P2).
  destruct (placed_right _ _ _ _ _ Hd HN Hl Hdl _ _ _ HH B3) as (m3 & E3 & _ & P3). destruct (placed_top _ _ _ _ _ Hd HN Hl Hdl _ _ _ Hny HH B4) as (m4 & E4 & _ & P4).
  cbn in E1, E2, E3, E4. injection E1 as <-. injection E2 as <-. injection E3 as <-. injection E4 as <-. exists W, rl, tl, rn, tn. auto 15.
Qed.

(* ------------------------------------------------------------------ *)
(** ** C95: where the outputs are measured, and what the data belong to *)

(** A column given from the right end, at least three pixels from it, is that column. *)
Theorem C95_output_column_partial : forall p c w nl s, (3 <= p <= Z.of_nat (s_Nx s))%Z ->
  flux_probe "x" (- p, c)%Z w nl s = flux_probe "x" (Z.of_nat (s_Nx s) - p, c)%Z w nl s.
Proof.
  intros p c w nl s Hp. unfold flux_probe, line_inds. cbn [fst snd String.eqb Ascii.eqb Bool.eqb].
  assert (SB : forall a, (a < 0 -> - Z.of_nat (s_Nx s) <= a -> slice_bound (s_Nx s) a = slice_bound (s_Nx s) (a + Z.of_nat (s_Nx s)))%Z).
  { intros a Ha Hb. unfold slice_bound. destruct (Z.ltb_spec a 0); [|lia]. destruct (Z.ltb_spec (a + Z.of_nat (s_Nx s)) 0); [lia|]. f_equal. lia. }
  assert (NS : forall (v : vec) a b a' b' j0 j1, slice_bound (s_Nx s) a = slice_bound (s_Nx s) a' -> slice_bound (s_Nx s) b = slice_bound (s_Nx s) b' ->
    nd_slice (mkNd (s_Nx s) (s_Ny s) v) a b j0 j1 = nd_slice (mkNd (s_Nx s) (s_Ny s) v) a' b' j0 j1).
  { intros v a b a' b' j0 j1 E1 E2. unfold nd_slice. cbn [nd_nx nd_ny]. rewrite E1, E2. reflexivity. }
  destruct ((if nl then s_fields_nl s else s_fields s) (pol_comp (s_pol s))) as [Zf|]; [|reflexivity].
  destruct ((if nl then s_fields_nl s else s_fields s) (comp2 (s_pol s))) as [Ff|]; [|reflexivity].
  rewrite (NS Zf (- p)%Z (- p + 1 + 1)%Z (Z.of_nat (s_Nx s) - p)%Z (Z.of_nat (s_Nx s) - p + 1 + 1)%Z).
  2: { rewrite SB by lia. f_equal. lia. } 2: { rewrite SB by lia. f_equal. lia. }
  rewrite (NS Ff (- p)%Z (- p + 1)%Z (Z.of_nat (s_Nx s) - p)%Z (Z.of_nat (s_Nx s) - p + 1)%Z).
  2: { rewrite SB by lia. f_equal. lia. } 2: { rewrite SB by lia. f_equal. lia. }
  reflexivity.
Qed.
(** Nearer the end the slices are empty: the power is 0 whatever the fields are. *)
Theorem C95_one_or_two_pixels_measure_nothing : forall p c w nl s P, (1 <= p <= 2)%Z -> (2 <= s_Nx s)%nat ->
  flux_probe "x" (- p, c)%Z w nl s = Ok P -> P = 0%R.
Proof.
  intros p c w nl s P Hp HN. unfold flux_probe, line_inds. cbn [fst snd String.eqb Ascii.eqb Bool.eqb].
  destruct ((if nl then s_fields_nl s else s_fields s) (pol_comp (s_pol s))) as [Zf|]; [|discriminate].
  destruct ((if nl then s_fields_nl s else s_fields s) (comp2 (s_pol s))) as [Ff|]; [|discriminate].
  set (A := nd_drop_last _). set (B := nd_slice _ _ _ _ _).
  assert (EA : nd_nx A = 0%nat).
  { set (X := (slice_bound (s_Nx s) (- p + 1 + 1) - slice_bound (s_Nx s) (- p))%nat).
    change (nd_nx A) with (slice_bound X (-1) - slice_bound X 0)%nat.
    assert (E : X = 0%nat) by (unfold X, slice_bound; destruct (Z.ltb_spec (- p + 1 + 1) 0), (Z.ltb_spec (- p) 0); lia).
    rewrite E. reflexivity. }
  assert (EB : nd_nx B = 0%nat \/ nd_nx B = 1%nat).
  { unfold B, nd_slice. cbn [nd_nx nd_ny]. unfold slice_bound. destruct (Z.ltb_spec (- p + 1) 0), (Z.ltb_spec (- p) 0); lia. }
  unfold nd_zip. rewrite EA. assert (E0 : bdim 0 (nd_nx B) = Some 0%nat) by (destruct EB as [->| ->]; reflexivity). rewrite E0.
  destruct (bdim (nd_ny A) (nd_ny B)) as [m|]; [|discriminate]. intro H. injection H as <-. unfold nd_sum, nd_size. cbn [nd_nx nd_ny Nat.mul rsum]. ring.
Qed.
(** The claim for every distance: false two pixels from the end. *)
Theorem C95_output_column_refuted : ~ (forall p c w nl s, (1 <= p <= Z.of_nat (s_Nx s))%Z ->
  flux_probe "x" (- p, c)%Z w nl s = flux_probe "x" (Z.of_nat (s_Nx s) - p, c)%Z w nl s).
Proof.
  intro H. destruct (fam_sim_ok "Ez" 5 4 0 0 (fun _ => 1%R) (or_introl eq_refl)) as [s0 HS]. destruct (fam_basic _ _ _ _ HS) as (Hp & Hd & HL & Ho & Ex & Ey & _).
  set (s := upd_fields (fun _ => Some (fun _ => RtoC 1)) s0).
  assert (EX : s_Nx s = 5%nat) by exact Ex. assert (EY : s_Ny s = 4%nat) by exact Ey. assert (EP : s_pol s = PolEz) by exact Hp.
  specialize (H 2%Z 1%Z 2%Z false s ltac:(rewrite EX; lia)). rewrite EX in H.
  assert (Z := flux_x_inside s false (fun _ => RtoC 1) (fun _ => RtoC 1) 3 1 2 0 2 eq_refl eq_refl eq_refl eq_refl ltac:(lia) ltac:(rewrite EX; cbn; lia) ltac:(lia) ltac:(rewrite EY; lia)).
  change (Z.of_nat 5 - 2)%Z with 3%Z in H. rewrite Z in H.
  apply (C95_one_or_two_pixels_measure_nothing 2 1 2 false s _ ltac:(lia) ltac:(rewrite EX; lia)) in H.
  rewrite EP, EY in H. cbn [Nat.sub rsum] in H. unfold line_power, poynting in H. change (s_dl s) with (s_dl s0) in H. rewrite Hd in H.
  autorewrite with reim in H. cbn in H. lra.
Qed.

(** x_range: the recorded coordinates are further apart than the pixels. *)
Theorem C95_recorded_coordinates : forall e lambda0 dl NPML chi3 eps_m amp d d', dev_history e d ->
  set_parameters lambda0 dl NPML chi3 eps_m amp d = (d', Ok tt) -> (2 <= s_Nx (dv_sim d))%nat ->
  exists xs, dv_dict d' "x_range" = Some (VList xs) /\ List.length xs = s_Nx (dv_sim d) /\
    forall i, (S i < s_Nx (dv_sim d))%nat -> (List.nth (S i) xs 0 - List.nth i xs 0 = dl * INR (s_Nx (dv_sim d)) / INR (s_Nx (dv_sim d) - 1))%R.
Proof.
  intros e lambda0 dl NPML chi3 eps_m amp d d' _ H HN.
  destruct (parameters_cases _ _ _ _ _ _ _ _ _ H) as (_ & _ & _ & [(L0 & f & _ & _ & _ & _ & _ & _ & _ & ED)|[[x X] _]]); [|discriminate].
  exists (dev_range (s_Nx (dv_sim d)) dl). split; [rewrite ED; reflexivity|]. unfold dev_range. split; [rewrite List.map_length, List.seq_length; reflexivity|].
  set (n := s_Nx (dv_sim d)) in *. intros i Hi.
  assert (G : forall k, (k < n)%nat -> List.nth k (List.map (linspace (- INR n / 2 * dl) (INR n / 2 * dl) n) (List.seq 0 n)) 0%R = linspace (- INR n / 2 * dl) (INR n / 2 * dl) n k).
  { intros k Hk. rewrite (List.nth_indep _ 0%R (linspace (- INR n / 2 * dl) (INR n / 2 * dl) n 0)) by (rewrite List.map_length, List.seq_length; exact Hk).
    rewrite List.map_nth, List.seq_nth by exact Hk. reflexivity. }
  rewrite !G by lia. unfold linspace. destruct (Nat.leb_spec n 1); [lia|]. rewrite S_INR.
  assert (Hn : INR (n - 1) <> 0%R) by (apply not_0_INR; lia). field. exact Hn.
Qed.
Corollary C95_coordinates_refuted : forall e lambda0 dl NPML chi3 eps_m amp d d', dev_history e d ->
  set_parameters lambda0 dl NPML chi3 eps_m amp d = (d', Ok tt) -> (2 <= s_Nx (dv_sim d))%nat ->
  exists xs, dv_dict d' "x_range" = Some (VList xs) /\ (List.nth 1 xs 0 - List.nth 0 xs 0 <> dl)%R.
Proof.
  intros e lambda0 dl NPML chi3 eps_m amp d d' Hd H HN. destruct (C95_recorded_coordinates _ _ _ _ _ _ _ _ _ Hd H HN) as (xs & A & _ & B).
  exists xs. split; [exact A|]. rewrite (B 0%nat) by lia. destruct (C91_parameters_are_stored _ _ _ _ _ _ _ _ _ Hd H) as (_ & _ & _ & _ & _ & _ & _ & _ & _ & _ & _ & Hdl & _).
  set (n := s_Nx (dv_sim d)) in *. intro E. assert (Hn : INR (n - 1) <> 0%R) by (apply not_0_INR; lia).
  assert (E2 : (dl * INR n = dl * INR (n - 1))%R) by (rewrite <- E at 2; field; exact Hn).
  apply Rmult_eq_reg_l in E2; [|exact Hdl]. apply INR_eq in E2. lia.
Qed.

(** Changing the geometry or the parameters of a device that has data leaves the flag and the
    data: they belong to what was set when generate_data ran. *)
Theorem C95_stale_data_refuted : forall t params d d', flag d "is_data_generated" -> set_geometry t params d = (d', Ok tt) ->
  flag d' "is_data_generated" /\ flag d' "is_geometry_set" /\ dv_dict d' "structure_type" = Some (VStr t) /\
  forall n, List.In n (data_names ++ ["T_lin"; "T_nl"; "S"]) -> dv_dict d' n = dv_dict d n.
Proof.
  intros t ps d d' F H. destruct (geometry_cases _ _ _ _ _ H) as (_ & _ & _ & [(Ht & Hl & Hr & HA & HT & HG & HO)|(_ & Hr & _)]); [|discriminate].
  assert (NI : forall n (l : list string), (if List.in_dec string_dec n l then true else false) = false -> ~ List.In n l) by (intros n l; destruct (List.in_dec string_dec n l); [discriminate|auto]).
  assert (K : forall n, List.In n ("is_data_generated" :: data_names ++ ["T_lin"; "T_nl"; "S"]) -> dv_dict d' n = dv_dict d n).
  { intros n Hn. apply HO, NI. cbn [data_names List.app List.In] in Hn.
    destruct Ht as [<-|[<-|[<-|[]]]]; repeat destruct Hn as [<-|Hn]; try contradiction; reflexivity. }
  unfold flag. split; [rewrite K by (left; reflexivity); exact F|]. split; [exact HG|]. split; [exact HT|]. intros n Hn. apply K. right. exact Hn.
Qed.
(* ------------------------------------------------------------------ *)
(** ** A device *)

(** the environment of C94_met with pyMKL *)
Definition mkl_env (v : vec) : env := mkEnv true (fun _ n A b => exact_solver n A b) (fun _ _ _ _ => 0%R)
  (e_eigs (sign_env v)) (fun _ E => (E, E)).
Lemma mkl_setup v m s : setup_src (mkl_env v) m s = setup_src (sign_env v) m s.
Proof. reflexivity. Qed.
Lemma py_int_8 : py_int (8 / 2 / 1) = 4%Z.
Proof. apply py_int_unique. unfold truncated. split; [intro; split; lra|lra]. Qed.

(** the calls succeed on a simulation of 9 x 6 pixels with a mode that has been set up *)
Definition ready (d : device) (W : R) : Prop :=
  dv_dict d "structure_type" = Some (VStr "two_port") /\ dv_dict d "NPML" = Some (VInts [0%Z; 0%Z]) /\
  dv_dict d "l" = Some (VNum 8) /\ dv_dict d "dl" = Some (VNum 1) /\ dv_dict d "ny" = Some (VInt 3) /\ dv_dict d "Ny" = Some (VInt 6) /\
  s_Nx (dv_sim d) = 9%nat /\ s_Ny (dv_sim d) = 6%nat /\ s_pol (dv_sim d) = PolEz /\ s_W_in (dv_sim d) = Val W.
Lemma div1 x : py_div x 1 = Ok (x / 1)%R.
Proof. unfold py_div. destruct (Req_EM_T 1 0); [lra|reflexivity]. Qed.
Lemma py_int_16 : py_int (2 * 8 / 3 / 1) = 5%Z.
Proof. apply py_int_unique. split; [intro; split; lra|lra]. Qed.
Lemma py_int_3 : py_int (6 / 2) = 3%Z.
Proof. apply py_int_unique. split; [intro; split; lra|lra]. Qed.
Lemma ready_out d W : ready d W -> args_two_out d = (d, Ok ("x", (-4, 3)%Z, 3%Z)).
Proof.
  intros (_ & N & L & D & y & Y & _). unfold args_two_out, far, half_Ny, pixels, getitem, getint, getnum, getattr, bind, lift, ret.
  rewrite N. cbn [List.nth_error]. rewrite L. cbn [as_num]. rewrite D. cbn [as_num]. rewrite div1, y, Y. cbn [as_num]. rewrite py_int_8, py_int_3. reflexivity.
Qed.
Lemma ready_in d W : ready d W -> args_two_in d = (d, Ok ("x", (5, 3)%Z, 3%Z)).
Proof.
  intros (_ & N & L & D & y & Y & _). unfold args_two_in, half_Ny, pixels23, getitem, getint, getnum, getattr, bind, lift, ret.
  rewrite N. cbn [List.nth_error]. rewrite L. cbn [as_num]. rewrite D. cbn [as_num]. rewrite div1, y, Y. cbn [as_num]. rewrite py_int_16, py_int_3. reflexivity.
Qed.
Lemma flux_runs (s : sim) (nl : bool) : s_Nx s = 9%nat -> s_Ny s = 6%nat -> s_pol s = PolEz ->
  (if nl then s_fields_nl s else s_fields s) Ez <> None -> (if nl then s_fields_nl s else s_fields s) Hy <> None ->
  exists w, flux_probe "x" (-4, 3)%Z 3 nl s = Ok w /\ flux_probe "x" (5, 3)%Z 3 nl s = Ok w.
Proof.
  intros X Y P A B. destruct ((if nl then s_fields_nl s else s_fields s) Ez) as [Zf|] eqn:EA; [|contradiction].
  destruct ((if nl then s_fields_nl s else s_fields s) Hy) as [Ff|] eqn:EB; [|contradiction].
  assert (FX := flux_x_inside s nl Zf Ff 5 3 3 1 4 ltac:(rewrite P; exact EA) ltac:(rewrite P; exact EB) eq_refl eq_refl ltac:(lia) ltac:(rewrite X; lia) ltac:(lia) ltac:(rewrite Y; lia)).
  eexists. split; [|exact FX]. change (-4)%Z with (- (4))%Z. rewrite C95_output_column_partial by (rewrite X; lia). rewrite X. exact FX.
Qed.
Lemma two_runs d W : ready d W -> (forall c, List.In c [Ez; Hy] -> s_fields (dv_sim d) c <> None /\ s_fields_nl (dv_sim d) c <> None) ->
  exists d', calc_transmissions d = (d', Ok tt).
Proof.
  intros HR HF. assert (HR' := HR). destruct HR as (T & _ & _ & _ & _ & _ & X & Y & P & HW).
  unfold calc_transmissions, get_type, bind, getattr, ret. rewrite T. cbn [String.eqb Ascii.eqb Bool.eqb].
  destruct (flux_runs (dv_sim d) false X Y P) as (wl & L1 & L2); [apply HF; inK|apply HF; inK|].
  destruct (flux_runs (dv_sim d) true X Y P) as (wn & N1 & N2); [apply HF; inK|apply HF; inK|].
  unfold calc_trans_two, take_W_in, bind at 1 2, getS. rewrite HW.
  assert (RS : forall n v d1, ready d1 W -> List.existsb (String.eqb n) ["structure_type"; "NPML"; "l"; "dl"; "ny"; "Ny"] = false -> ready (fst (setattr n v d1)) W).
  { intros n v d1 (a1 & a2 & a3 & a4 & a5 & a6 & a7) Hn. unfold setattr, modS, ready. cbn [fst dv_dict dv_sim]. cbn [List.existsb] in Hn.
    repeat (apply Bool.orb_false_iff in Hn as [? Hn]). rewrite !(String.eqb_sym _ n). repeat match goal with Q : String.eqb n _ = false |- _ => rewrite Q; clear Q end.
    repeat split; try assumption; apply a7. }
  assert (PO : forall n nl d1 w, ready d1 W -> dv_sim d1 = dv_sim d -> flux_probe "x" (-4, 3)%Z 3 nl (dv_sim d) = Ok w -> probe_to n args_two_out nl d1 = (fst (setattr n (VNum w) d1), Ok w)).
  { intros n nl d1 w R1 S1 Q. unfold probe_to, bind, getS, lift, ret. rewrite (ready_out _ _ R1). cbn [fst snd]. rewrite S1, Q. reflexivity. }
  assert (PI : forall n nl d1 w, ready d1 W -> dv_sim d1 = dv_sim d -> flux_probe "x" (5, 3)%Z 3 nl (dv_sim d) = Ok w -> probe_to n args_two_in nl d1 = (fst (setattr n (VNum w) d1), Ok w)).
  { intros n nl d1 w R1 S1 Q. unfold probe_to, bind, getS, lift, ret. rewrite (ready_in _ _ R1). cbn [fst snd]. rewrite S1, Q. reflexivity. }
  set (d1 := fst (setattr "W_in" (VNum W) d)). change (setattr "W_in" (VNum W) d) with (d1, Ok tt). cbv iota beta.
  assert (R1 : ready d1 W) by (apply RS; [assumption|reflexivity]).
  unfold bind at 1. rewrite (PO "W_out_lin" false d1 wl R1 eq_refl L1). set (d2 := fst (setattr "W_out_lin" (VNum wl) d1)). assert (R2 : ready d2 W) by (apply RS; [assumption|reflexivity]).
  unfold bind at 1. rewrite (PI "W_in_lin" false d2 wl R2 eq_refl L2). set (d3 := fst (setattr "W_in_lin" (VNum wl) d2)). assert (R3 : ready d3 W) by (apply RS; [assumption|reflexivity]).
  unfold bind at 1. change (over_W_in wl d3) with (d3, Ok (ratio wl W)). cbv iota beta. unfold bind at 1. set (d4 := fst (setattr "T_lin" (VQuot (ratio wl W)) d3)).
  change (setattr "T_lin" (VQuot (ratio wl W)) d3) with (d4, Ok tt). cbv iota beta. assert (R4 : ready d4 W) by (apply RS; [assumption|reflexivity]).
  unfold bind at 1. rewrite (PO "W_out_nl" true d4 wn R4 eq_refl N1). set (d5 := fst (setattr "W_out_nl" (VNum wn) d4)). assert (R5 : ready d5 W) by (apply RS; [assumption|reflexivity]).
  unfold bind at 1. rewrite (PI "W_in_nl" true d5 wn R5 eq_refl N2). set (d6 := fst (setattr "W_in_nl" (VNum wn) d5)).
  unfold bind at 1. change (over_W_in wn d6) with (d6, Ok (ratio wn W)). cbv iota beta. eexists. reflexivity.
Qed.
(* ------------------------------------------------------------------ *)
(** ** The fields that are measured *)

(** ... and they are there if the solver can run *)
Lemma nl_default_runs e s : e_pardiso e = true -> s_pol s = PolEz -> nd_size (s_src s) = s_M s ->
  exists s' G c, solve_fields_nl_default e s = (s', Ok (G, c)) /\ same_problem s s'.
Proof.
  intros He Hp Hs. destruct (proj1 (proj2 (C33_solvers_run_partial e s false None (1 / 10 ^ 10)%R 50 Hs ltac:(lia))) Hp He) as (_ & s' & F & c & H).
  exists s', F, c. split; [exact H|]. eapply nl_solve_same. exact H.
Qed.
Lemma shift_runs e s : e_pardiso e = true -> s_pol s = PolEz -> nd_size (s_src s) = s_M s -> exists s' a, compute_index_shift e s = (s', Ok a).
Proof.
  intros He Hp Hs. unfold compute_index_shift, bind. destruct (solve_fields_lin e false s Hs) as (X & _ & H). cbv zeta in H. rewrite H.
  match goal with |- context [solve_fields_nl_default e ?t] => destruct (nl_default_runs e t He Hp Hs) as (s' & G & c & E & _) end.
  rewrite E. do 2 eexists. reflexivity.
Qed.

Theorem C96_fields_agree : forall e s s' a dir center width,
  solver_exact e -> no_nonlinearity s -> nonsingular (s_M s) (s_A s) -> compute_index_shift e s = (s', Ok a) ->
  flux_probe dir center width true s' = flux_probe dir center width false s'.
Proof.
  intros e s s' a dir c w He Hq HA H. apply shift_fields in H as (HS & (t & t' & [[fa fb] FX] & d & ST & E1 & F1) & (t2 & [[ga gb] GX] & cv & d2 & ST2 & E2 & F2)).
  destruct (same_system _ _ ST) as (M1 & A1 & _). destruct (same_system _ _ ST2) as (M2 & A2 & _).
  assert (L1 : lin_fields s (fa, fb, FX)) by (apply (lin_fields_same _ _ _ ST), (lin_fields_lin _ _ _ _ He ltac:(rewrite M1, A1; exact HA) E1)).
  assert (L2 : lin_fields s (ga, gb, GX)).
  { apply (lin_fields_same _ _ _ ST2). apply (solve_nl_lin e "hybrid" (1 / 10 ^ 10)%R 50 t2 s' _ cv He (no_nl_same _ _ ST2 Hq) ltac:(rewrite M2, A2; exact HA) ltac:(auto) E2). }
  assert (K := lin_fields_scaled s s (RtoC 1) _ _ _ _ _ _ HA eq_refl eq_refl (fun _ => eq_refl) ltac:(intros; ring) L2 L1).
  assert (P : s_pol s' = s_pol s) by (unfold same_problem in HS; intuition). assert (EM : s_M s' = s_M s) by (unfold same_problem, s_M in *; intuition congruence).
  assert (Z := flux_scaled 1 dir c w false s' (upd_fields (s_fields_nl s') s') fa fb FX ga gb GX).
  change (flux_probe dir c w false (upd_fields (s_fields_nl s') s')) with (flux_probe dir c w true s') in Z. rewrite Z.
  - destruct (flux_probe dir c w false s'); [f_equal; ring|reflexivity].
  - unfold same_grid. cbn. auto.
  - exists d. unfold probe_fields. rewrite F1, P. reflexivity.
  - exists d2. unfold probe_fields. cbn [upd_fields s_fields]. rewrite F2, P. reflexivity.
  - rewrite EM. intros k Hk. apply K, Hk.
Qed.
Lemma measured_linear e d d1 args : solver_exact e -> no_nonlinearity (dv_sim d) -> nonsingular (s_M (dv_sim d)) (s_A (dv_sim d)) ->
  dev_index_shift e d = (d1, Ok tt) -> measured d1 args true = measured d1 args false.
Proof.
  intros He Hq HA H. unfold dev_index_shift in H. destruct (bind_ok _ _ _ _ _ H) as (d2 & x & H1 & H2). unfold on_sim in H1.
  destruct (compute_index_shift e (dv_sim d)) as [s' r] eqn:E. injection H1 as <- ->. unfold setattr, modS in H2. injection H2 as <-.
  unfold measured. cbn [dv_sim]. destruct (snd (args _)); [|reflexivity]. eapply C96_fields_agree; eassumption.
Qed.
(** A linear device: the linear and the nonlinear transmissions are the same. *)
Theorem C96_linear_device : forall e d d' Nf Np s_min s_max, dev_history e d ->
  solver_exact e -> no_nonlinearity (dv_sim d) -> nonsingular (s_M (dv_sim d)) (s_A (dv_sim d)) ->
  generate_data e Nf Np s_min s_max d = (d', Ok tt) ->
  (dv_dict d "structure_type" = Some (VStr "two_port") -> exists T, dv_dict d' "T_lin" = Some (VQuot T) /\ dv_dict d' "T_nl" = Some (VQuot T)) /\
  (dv_dict d "structure_type" = Some (VStr "three_port") -> exists top bot, dv_dict d' "S" = Some (VTable [[top; top]; [bot; bot]])) /\
  (dv_dict d "structure_type" = Some (VStr "ortho_port") -> exists top right, dv_dict d' "S" = Some (VTable [[top; right]; [top; right]])).
Proof.
  intros e d d' Nf Np a b Hd He Hq HA H. destruct (generate_ok _ _ _ _ _ _ _ (history_inv _ _ Hd) H) as (_ & _ & d1 & d2 & d3 & d4 & H1 & H2 & H3 & H4 & E5 & _).
  assert (ML : forall args, measured d1 args true = measured d1 args false) by (intro args; eapply measured_linear; eassumption).
  destruct (only_shift e _ _ _ H1) as [O1 _]. destruct (only_freq e Nf _ _ _ H3) as [O3 _]. destruct (only_power e Np a b _ _ _ H4) as [O4 _].
  assert (ET : dv_dict d1 "structure_type" = dv_dict d "structure_type") by (apply O1; isnt).
  assert (EK : forall n, List.In n ["T_lin"; "T_nl"; "S"] -> dv_dict d' n = dv_dict d2 n).
  { intros n Hn. rewrite E5. cbn [dv_dict]. cbn [List.In] in Hn. repeat destruct Hn as [<-|Hn]; try contradiction;
    cbn [String.eqb Ascii.eqb Bool.eqb]; rewrite O4 by isnt; rewrite O3 by isnt; reflexivity. }
  split; [|split]; intro Ht; rewrite <- ET in Ht; unfold calc_transmissions, get_type, bind, getattr, ret in H2; rewrite Ht in H2; cbn [String.eqb Ascii.eqb Bool.eqb] in H2.
  - apply trans_two_ok in H2. destruct H2 as (W & wl & wn & _ & B & C & _ & E & F & _). rewrite ML, B in C. injection C as <-.
    exists (ratio wl W). rewrite !EK by inK. auto.
  - apply trans_three_ok in H2. destruct H2 as (W & tl & bl & tn & bn & _ & B1 & B2 & B3 & B4 & _ & E & _). rewrite ML, B1 in B3. rewrite ML, B2 in B4. injection B3 as <-. injection B4 as <-.
    exists (ratio tl W), (ratio bl W). rewrite !EK by inK. auto.
  - apply trans_ortho_ok in H2. destruct H2 as (W & rl & tl & rn & tn & _ & B1 & B2 & B3 & B4 & _ & E & _). rewrite ML, B1 in B3. rewrite ML, B2 in B4. injection B3 as <-. injection B4 as <-.
    exists (ratio tl W), (ratio rl W). rewrite !EK by inK. auto.
Qed.

Lemma run_probes_all W ps : forall s s' l, run_probes W ps s = (s', Ok l) -> List.Forall (fun p : St sim R => exists t t' w, p t = (t', Ok w)) ps.
Proof.
  induction ps as [|p ps IH]; intros s s' l H; [constructor|]. cbn [run_probes] in H. unfold bind in H.
  destruct (p s) as [s1 [w|]] eqn:E; [|discriminate]. destruct (run_probes W ps s1) as [s2 [l2|]] eqn:E2; [|discriminate]. constructor; [eauto|eapply IH; exact E2].
Qed.
Lemma probes_placed d l : List.Forall (fun p : St sim R => exists t t' w, p t = (t', Ok w)) (List.map (probe_of d) l) ->
  exists xs, List.map (probe_of d) l = List.map (flux_of true) xs /\ List.length xs = List.length l.
Proof.
  induction l as [|a l IH]; intro H; [exists []; auto|]. inversion H as [|q r (t & t' & w & Q) F]; subst. destruct (IH F) as (xs & E & L).
  unfold probe_of in Q. destruct (snd (a d)) as [x|] eqn:EX; [|discriminate]. exists (x :: xs). split; [|cbn; congruence]. cbn [List.map]. rewrite E. f_equal.
  unfold probe_of, flux_of. rewrite EX. reflexivity.
Qed.
(** ... and each curve of the power scan is flat. *)
Theorem C96_flat_power_scan : forall e d d' Np s_min s_max m t ty,
  solver_exact e -> s_modes (dv_osim d) = m :: t -> no_nonlinearity (dv_osim d) -> no_other_source m (dv_osim d) ->
  nonsingular (s_M (dv_osim d)) (s_A (dv_osim d)) -> straight_solvable m (dv_osim d) ->
  dv_dict d "structure_type" = Some (VStr ty) -> List.In ty ["two_port"; "three_port"; "ortho_port"] ->
  power_scan e Np s_min s_max d = (d', Ok tt) ->
  exists rows, dv_dict d' "transmissions" = Some (VTable rows) /\
    forall row, List.In row rows -> forall k k', (k < Np)%nat -> (k' < Np)%nat -> List.nth k row None = List.nth k' row None.
Proof.
  intros e d d' Np a b m t ty0 He Hm Hq H0 HA HW Ht Hk0 H. unfold power_scan in H. destruct (bind_ok _ _ _ _ _ H) as (d1 & ty & H1 & H2). clear H.
  unfold get_type, bind, getattr, ret in H1. rewrite Ht in H1. injection H1 as <- <-.
  destruct (scan_args ty0) as [args|] eqn:EA; [|exfalso; cbn [List.In] in Hk0; repeat destruct Hk0 as [<-|Hk0]; try contradiction; discriminate].
  unfold bind at 1, getS in H2. destruct (bind_ok _ _ _ _ _ H2) as (d2 & [pw tr] & H3 & H4). clear H2.
  unfold on_opt in H3. destruct (scan_power e (Some (List.map (probe_of d) args)) Np a b "hybrid" (dv_opt d, dv_osim d)) as [[o' s'] r] eqn:E. injection H3 as <- ->.
  unfold bind, setattr, modS in H4. injection H4 as <-. cbn [dv_dict String.eqb Ascii.eqb Bool.eqb fst snd]. exists tr. split; [reflexivity|].
  intros row HR k k' Hk Hk'.
  assert (EP : exists xs, List.map (probe_of d) args = List.map (flux_of true) xs /\ List.length xs = List.length args).
  { apply probes_placed. unfold scan_power in E. destruct (Rlt_dec 0 a); [|discriminate]. destruct (Rlt_dec 0 b); [|discriminate].
    destruct (power_loop _ _ _ _ _) as [st1 [l|]] eqn:EL; [|discriminate]. apply power_loop_spec in EL as [L1 L2]. rewrite List.map_length, List.seq_length in L2.
    specialize (L2 0%nat ltac:(lia)). unfold scan_point in L2. cbn [snd] in L2. rewrite Hm in L2. cbv zeta in L2. destruct (setup_src _ _ _) as [q1 [|]]; [|discriminate].
    destruct (s_W_in q1); try discriminate. destruct (scan_solve _ _ _) as [q2 [|]]; [|discriminate]. destruct (run_probes _ _ q2) as [q3 [ll|]] eqn:EQ; [|discriminate]. eapply run_probes_all. exact EQ. }
  destruct EP as (xs & EX & LX). assert (E' := E). rewrite EX in E.
  assert (C := C94_power_scan_is_flat e "hybrid" xs Np a b (dv_opt d) m t (dv_osim d) _ pw tr He Hm Hq H0 HA HW ltac:(auto) E k k' Hk Hk'). destruct C as [_ C].
  destruct (List.In_nth _ _ [] HR) as (p & Hp & <-). apply C.
  assert (LT : List.length tr = List.length xs).
  { unfold scan_power in E. destruct (Rlt_dec 0 a); [|discriminate]. destruct (Rlt_dec 0 b); [|discriminate].
    destruct (power_loop _ _ _ _ _) as [st1 [l|]]; [|discriminate]. injection E as _ _ <-. rewrite !List.map_length, List.seq_length. reflexivity. }
  rewrite <- LT. exact Hp.
Qed.
Lemma norm_W e m W s : compute_normalization e m (upd_W_in W s) = compute_normalization e m s.
Proof.
  unfold compute_normalization. change (s_eps (upd_W_in W s)) with (s_eps s).
  destruct (norm_structure m (s_eps s)) as [[eps c]|]; [|reflexivity].
  change (set_eps eps (upd_W_in W s)) with (upd_W_in W (set_eps eps s)). set (t := set_eps eps s). cbv zeta.
  change (s_src (upd_W_in W t)) with (s_src t). change (insert_mode e m (upd_W_in W t) (s_src t)) with (insert_mode e m t (s_src t)).
  destruct (insert_mode e m t (s_src t)) as [d|]; [|reflexivity]. change (upd_src d (upd_W_in W t)) with (upd_W_in W (upd_src d t)).
  set (u := upd_src d t). unfold solve_fields. change (s_src (upd_W_in W u)) with (s_src u). change (s_M (upd_W_in W u)) with (s_M u).
  change (s_A (upd_W_in W u)) with (s_A u). change (rhs (upd_W_in W u)) with (rhs u).
  destruct (Nat.eqb _ _); [|reflexivity]. destruct (solver_direct _ _ _ _ _) as [X|]; [|reflexivity]. cbn [negb].
  change (derived_fields (upd_W_in W u) (s_epsC (upd_W_in W u)) false X) with (derived_fields u (s_epsC u) false X).
  destruct (derived_fields u (s_epsC u) false X) as [p q]. reflexivity.
Qed.
Lemma setup_W e m W s s' : setup_src e m s = (s', Ok tt) -> setup_src e m (upd_W_in W s) = (s', Ok tt).
Proof.
  intro H. unfold setup_src in *. rewrite norm_W. destruct (compute_normalization e m s) as [W'|]; [|discriminate]. cbv zeta in *.
  change (insert_mode e m (upd_W_in W' (upd_W_in W s)) (s_src (upd_W_in W' (upd_W_in W s)))) with (insert_mode e m (upd_W_in W' s) (s_src (upd_W_in W' s))).
  destruct (insert_mode _ _ _ _); [|discriminate]. injection H as <-. reflexivity.
Qed.
Lemma scan_solve_runs e s : e_pardiso e = true -> s_pol s = PolEz -> nd_size (s_src s) = s_M s ->
  exists s', scan_solve e "hybrid" s = (s', Ok tt) /\ same_problem s s' /\ exists d F, s_fields_nl s' = store3 PolEz d F.
Proof.
  intros He Hp Hs. unfold scan_solve. cbn [String.eqb Ascii.eqb Bool.eqb].
  destruct (proj1 (C33_solvers_run_partial e s false None (1 / 10 ^ 10)%R 100 Hs ltac:(lia))) as (s1 & F & c & H1). rewrite H1.
  assert (S1 : same_problem s s1) by (apply solve_nl_step in H1; apply H1).
  assert (F1 : exists d, s_fields_nl s1 = store3 PolEz d F).
  { unfold solve_fields_nl in H1. destruct (run_solver_nl _ _ _ _ _ _ s) as [s2 [[F2 c2]|]] eqn:E; [|discriminate]. injection H1 as <- <- _.
    apply run_solver_nl_step in E as [E _]. assert (P : s_pol s2 = PolEz) by (rewrite <- Hp; unfold same_problem in E; intuition). cbn [upd_fields_nl s_fields_nl]. rewrite P. eauto. }
  assert (LC : exists c0, last_conv c = Ok c0).
  { unfold solve_fields_nl in H1. destruct (run_solver_nl e false None "born" (1 / 10 ^ 10) 100 s) as [s2 [[F2 c2]|]] eqn:E; [|discriminate]. injection H1 as _ _ <-.
    unfold run_solver_nl in E. cbn [String.eqb Ascii.eqb Bool.eqb] in E. destruct F2 as [[fa fb] FX].
    apply born_solve_spec in E as (s1' & F0 & Fp & l0 & c0 & _ & _ & E & _ & _ & _ & HF & HL & Ht & _).
    assert (LL : List.length c2 = 100%nat) by (eapply record_of_spec; eassumption).
    unfold last_conv. destruct (rev c2) as [|y l] eqn:ER; [|eauto]. apply (f_equal (@List.length _)) in ER. rewrite List.rev_length, LL in ER. discriminate. }
  destruct LC as [c0 ->]. destruct (xgt c0 _).
  - destruct (same_rhs _ _ S1) as (_ & M1 & Z1 & P1).
    destruct (proj1 (proj2 (C33_solvers_run_partial e s1 false None (1 / 10 ^ 10)%R 100 ltac:(congruence) ltac:(lia))) ltac:(congruence) He) as ((s2 & F2 & c2 & H2) & _).
    unfold bind. rewrite H2. exists s2. split; [reflexivity|]. split; [eapply same_trans; [exact S1|apply solve_nl_step in H2; apply H2]|].
    unfold solve_fields_nl in H2. destruct (run_solver_nl _ _ _ _ _ _ s1) as [s3 [[F3 c3]|]] eqn:E; [|discriminate]. injection H2 as <- <- _.
    apply run_solver_nl_step in E as [E _]. assert (P : s_pol s3 = PolEz) by (rewrite <- Hp, <- P1; unfold same_problem in E; intuition). cbn [upd_fields_nl s_fields_nl]. rewrite P. eauto.
  - exists s1. split; [reflexivity|]. split; [exact S1|]. destruct F1 as [d F1]. eauto.
Qed.
Lemma parameters_run d f o : dv_dict d "L0" = Some (VNum 1) -> dv_dict d "Ez" = Some (VField (Some f)) -> s_Nx (dv_sim d) = 9%nat -> s_Ny (dv_sim d) = 6%nat -> dv_opt d = o ->
  exists d1, set_parameters 1 1 [0%Z; 0%Z] 0 2 1 d = (d1, Ok tt) /\ dv_sim d1 = dv_sim d /\ dv_opt d1 = o /\ dv_osim d1 = dv_osim d /\
    dv_dict d1 "ny" = Some (VInt 3) /\ dv_dict d1 "Ny" = Some (VInt 6) /\ dv_dict d1 "omega" = Some (VNum (2 * PI * (3 * 10 ^ 8) / 1)).
Proof.
  intros L E X Y EO. destruct d as [s oo so D]. cbn [dv_dict dv_sim dv_opt dv_osim] in *. subst oo.
  eexists. split.
  - unfold set_parameters, py_div. destruct (Req_EM_T 1 0) as [Q|_]; [lra|].
    unfold bind, setattr, modS, getnum, getattr, bind, lift, getS, ret, raise; cbv beta iota zeta; cbn [dv_dict dv_sim dv_opt dv_osim String.eqb Ascii.eqb Bool.eqb].
    rewrite L. cbn [as_num]. destruct (Req_EM_T 1 0) as [Q|_]; [lra|]. cbn [dv_dict dv_sim dv_opt dv_osim String.eqb Ascii.eqb Bool.eqb]. rewrite E. reflexivity.
  - cbn [dv_dict dv_sim dv_opt dv_osim String.eqb Ascii.eqb Bool.eqb]. rewrite Y. do 3 (split; [reflexivity|]). split; [reflexivity|]. split; reflexivity.
Qed.
Lemma geometry_run d o : dv_opt d = o -> exists d1, set_geometry "two_port" [VNum 1; VNum 6; VNum 3; VNum 8; VNum 0; VNum 1; VInts [0%Z; 0%Z]; VArray (fun _ => 2%R)] d = (d1, Ok tt) /\
  dv_sim d1 = dv_sim d /\ dv_opt d1 = o /\ dv_osim d1 = dv_osim d /\ dv_dict d1 "structure_type" = Some (VStr "two_port") /\ dv_dict d1 "NPML" = Some (VInts [0%Z; 0%Z]) /\
  dv_dict d1 "l" = Some (VNum 8) /\ dv_dict d1 "dl" = Some (VNum 1) /\ forall k, List.In k ["ny"; "Ny"; "omega"] -> dv_dict d1 k = dv_dict d k.
Proof.
  intros EO. match goal with |- exists d1, ?m d = _ /\ _ => destruct (m d) as [d1 r] eqn:E end.
  destruct (geometry_cases _ _ _ _ _ E) as (S1 & S2 & S3 & [(_ & _ & -> & A & T & _ & O)|(N & _)]); [|exfalso; apply N; split; [left; reflexivity|reflexivity]].
  exists d1. split; [reflexivity|]. split; [exact S1|]. split; [congruence|]. split; [exact S3|]. split; [exact T|].
  split; [exact (A 6%nat "NPML" eq_refl)|]. split; [exact (A 3%nat "l" eq_refl)|]. split; [exact (A 5%nat "dl" eq_refl)|].
  intros k Hk. cbn [List.In] in Hk. repeat destruct Hk as [<-|Hk]; try contradiction; apply O; cbn; intuition discriminate.
Qed.
Lemma freq_run e d o s om : dv_opt d = o -> dv_osim d = s -> o_objective o = set_J (shifted_intensity 0) [Ez_lin] -> s_pol s = PolEz -> nd_size (s_src s) = nd_size (s_eps s) ->
  dv_dict d "omega" = Some (VNum om) -> exists d1, freq_scan e 3 d = (d1, Ok tt) /\ dv_osim d1 = s.
Proof.
  intros EO ES HO HP HZ HD.
  assert (HL : exists o' l, scan_loop e (List.map (scan_freq (s_omega s) (1 / 400) 3) (List.seq 0 3)) (o, s) = ((o', s), Ok l)).
  { apply scan_loop_ok. intros f _.
    assert (HJ := compute_J_lin e (upd_current false o) (at_omega s (2 * PI * f)) (shifted_intensity 0) [Ez_lin] eq_refl HO HP HZ
      ltac:(constructor; [split; [split; [reflexivity|left; reflexivity]|reflexivity]|constructor]) eq_refl).
    apply compute_J_fresh' in HJ; [|reflexivity]. change (fresh_J e (upd_current false o) (at_omega s (2 * PI * f))) with (fresh_J e o (at_omega s (2 * PI * f))) in HJ. eauto. }
  destruct HL as (o' & l & HL). unfold freq_scan, bind, on_opt. rewrite EO, ES. unfold scan_frequency. cbn [snd]. rewrite HL.
  unfold setattr, modS, getnum, getattr, bind, lift. cbn [dv_dict dv_sim dv_opt dv_osim String.eqb Ascii.eqb Bool.eqb]. rewrite HD. eexists. split; reflexivity.
Qed.
(** A device that goes through all the calls: the waveguide of C94_met, its mode set up, no nonlinearity. *)
Lemma device_example : exists e s o d d1 d2 d3,
  solver_exact e /\ no_nonlinearity s /\ nonsingular (s_M s) (s_A s) /\ s_modes s = [mid_mode] /\ nd_at (s_src s) 2 2 <> RtoC 0 /\ s_Nx s = 9%nat /\
  Optimization (set_J (shifted_intensity 0) [Ez_lin]) s (fun _ => 1%R) 2 None (1 / 2) 10 "linear" "hybrid" None = Ok o /\
  Device e s o s = Ok d /\ same_problem s (dv_sim d) /\ dv_osim d2 = s /\ same_problem s (dv_sim d2) /\
  set_parameters 1 1 [0%Z; 0%Z] 0 2 1 d = (d1, Ok tt) /\
  set_geometry "two_port" [VNum 1; VNum 6; VNum 3; VNum 8; VNum 0; VNum 1; VInts [0%Z; 0%Z]; VArray (fun _ => 2%R)] d1 = (d2, Ok tt) /\
  generate_data e 3 1 1 10 d2 = (d3, Ok tt) /\ dv_dict d2 "structure_type" = Some (VStr "two_port") /\
  no_other_source mid_mode s /\ straight_solvable mid_mode s /\
  s_pol s = PolEz /\ s_Nx s = 9%nat /\ s_Ny s = 6%nat /\ s_eps s = mkNd 9 6 two_eps /\ nd_size (s_src s) = s_M s /\ e_pardiso e = true.
Proof.
  destruct (fam_sim_ok "Ez" 9 6 0 0 two_eps (or_introl eq_refl)) as [s0 HS].
  destruct (fam_plain _ _ _ _ HS ltac:(lia) ltac:(lia) ltac:(intros; unfold two_eps; lra)) as (_ & HR & HN & _).
  destruct (fam_basic _ _ _ _ HS) as (Hp & Hd & HL & Ho & Ex & Ey & Ee & Es & HQ).
  assert (SQ : ((/ sqrt 3) ^ 2 = / 3)%R) by (rewrite <- third; unfold Rsqr; ring).
  destruct (uniform_mode_set_up (/ sqrt 3) 9 s0 (s_src s0) SQ HS ltac:(lia) ltac:(rewrite Es; reflexivity) ltac:(rewrite Es; reflexivity)) as (s1 & ? & ? & ? & ? & W & R1 & V1 & _ & _ & _ & _ & W1 & _).
  assert (ES: upd_src (s_src s0) s0 = s0) by (destruct s0; reflexivity). rewrite ES in R1.
  rewrite <- mkl_setup in R1. set (e := mkl_env (fun _ => RtoC (/ sqrt 3))) in *.
  assert (Hm: s_modes s0 = [] /\ s_nl s0 = []). { unfold fam_sim, Simulation in HS. destruct (check_inputs _ _ _ _); [|discriminate]. injection HS as <-. auto. }
  destruct Hm as [Hm Hnl].
  assert (DN : nd_nx (s_src s1) = 9%nat /\ nd_ny (s_src s1) = 6%nat).
  { assert (H1 := C55_only_the_line_is_written _ _ _ _ R1 0%nat 0%nat ltac:(rewrite Es; cbn; lia) ltac:(rewrite Es; cbn; lia)). destruct H1 as (N1 & N2 & _). rewrite N1, N2, Es. auto. }
  destruct DN as [N1 N2].
  assert (I1 := R1). apply setup_src_inv in I1 as (_ & _ & _ & _ & _ & _ & _ & _ & _ & W' & _ & E1). assert (W' = W) by (rewrite E1 in W1; cbn in W1; congruence). subst W'.
  set (s := upd_modes [mid_mode] s1).
  assert (PS : s_pol s = PolEz /\ s_Nx s = 9%nat /\ s_Ny s = 6%nat /\ s_W_in s = Val W /\ s_L0 s = 1%R /\ s_eps s = mkNd 9 6 two_eps /\ s_nl s = []).
  { unfold s. cbn [upd_modes s_pol s_Nx s_Ny s_W_in s_L0 s_eps s_nl]. rewrite W1, E1. cbn. auto 10. }
  destruct PS as (P & X & Y & HW & HL0 & HE & HNL).
  assert (SZ : nd_size (s_src s) = s_M s) by (unfold s_M; rewrite X, Y; unfold s; cbn [upd_modes s_src]; unfold nd_size; rewrite N1, N2; reflexivity).
  destruct (shift_runs e s eq_refl P SZ) as (s' & a & HSH). assert (HF := HSH). apply shift_fields in HF as (HSP & (_ & _ & [[fa fb] FX] & dd & _ & _ & F1) & _).
  unfold compute_index_shift, bind, getS, ret in HSH. destruct (solve_fields e false false s) as [t1 [F|]] eqn:EL; [|discriminate].
  destruct (solve_fields_nl_default e t1) as [t2 [G|]] eqn:EN; [|discriminate]. injection HSH as -> _.
  set (o := mkOpt (set_J (shifted_intensity 0) [Ez_lin]) (fun _ => 1%R) rId (1 / 2) 10 2 "linear" "hybrid" None [] [] false None).
  assert (HD : exists d, Device e s o s = Ok d /\ dv_sim d = s' /\ dv_opt d = o /\ dv_osim d = s /\ dv_dict d "L0" = Some (VNum 1) /\ dv_dict d "Ez" = Some (VField (Some FX))).
  { unfold Device, bind, setattr, modS, on_sim, getS. cbn [dv_sim dv_opt dv_osim dv_dict]. rewrite EL. cbn [dv_sim dv_opt dv_osim dv_dict]. rewrite EN. eexists. split; [reflexivity|].
    cbn [dv_sim dv_opt dv_osim dv_dict String.eqb Ascii.eqb Bool.eqb]. rewrite HL0, F1, P. auto 10. }
  destruct HD as (d & HD & D1 & D2 & D3 & D4 & D5).
  assert (HX' : s_Nx s' = 9%nat /\ s_Ny s' = 6%nat /\ s_pol s' = PolEz /\ s_W_in s' = Val W /\ s_src s' = s_src s) by (unfold same_problem in HSP; intuition congruence).
  destruct HX' as (X' & Y' & P' & W' & R').
  destruct (parameters_run d FX o D4 D5 ltac:(rewrite D1; exact X') ltac:(rewrite D1; exact Y') D2) as (d1 & HP & A1 & A2 & A3 & A4 & A5 & A6).
  destruct (geometry_run d1 o A2) as (d2 & HG & B1 & B2 & B3 & B4 & B5 & B6 & B7 & B8).
  exists e, s, o, d, d1, d2.
  assert (S2 : dv_sim d2 = s') by congruence. assert (O2 : dv_osim d2 = s) by congruence.
  destruct (shift_runs e s' eq_refl P' ltac:(rewrite R'; unfold s_M; rewrite X', Y'; unfold s_M in SZ; rewrite X, Y in SZ; exact SZ)) as (s3 & a3 & H3).
  assert (F3 := H3). apply shift_fields in F3 as (SP3 & (_ & _ & [[ga gb] GX] & dd3 & _ & _ & G1) & (_ & [[ha hb] HX] & _ & dd4 & _ & _ & G2)).
  assert (Q1 : exists d3, dev_index_shift e d2 = (d3, Ok tt) /\ dv_sim d3 = s3 /\ dv_opt d3 = o /\ dv_osim d3 = s /\ forall k, k <> "index_shift" -> dv_dict d3 k = dv_dict d2 k).
  { unfold dev_index_shift, bind, on_sim. rewrite S2, H3. unfold setattr, modS. eexists. split; [reflexivity|]. cbn [dv_sim dv_opt dv_osim dv_dict]. do 3 (split; [assumption || reflexivity|]).
    intros k Hk. destruct (String.eqb_spec k "index_shift"); [contradiction|reflexivity]. }
  destruct Q1 as (d3 & Q1 & C1 & C2 & C3 & C4).
  assert (RD : ready d3 W).
  { unfold ready. rewrite !C4 by discriminate. rewrite C1. do 4 (split; [assumption|]). rewrite !B8 by inK. do 2 (split; [assumption|]). unfold same_problem in SP3. intuition congruence. }
  destruct (two_runs d3 W RD) as (d4 & Q2).
  { rewrite C1, G1, G2, P'. intros c [<-|[<-|[]]]; cbn; split; discriminate. }
  destruct (only_trans _ _ _ Q2) as [O4 _].
  assert (KO : dv_opt d4 = o /\ dv_osim d4 = s /\ dv_sim d4 = dv_sim d3).
  { assert (H := Q2). unfold calc_transmissions, get_type, bind, getattr, ret in H. rewrite (proj1 RD) in H. cbn [String.eqb Ascii.eqb Bool.eqb] in H.
    clear - H C2 C3. unfold calc_trans_two in H.
    assert (KP : forall n a nl dx dy w, reads a -> ~ List.In n geo_keys -> probe_to n a nl dx = (dy, Ok w) -> dv_opt dy = dv_opt dx /\ dv_osim dy = dv_osim dx /\ dv_sim dy = dv_sim dx).
    { intros n a nl dx dy w R N K. apply probe_ok in K as [_ ->]; auto. }
    destruct (bind_ok _ _ _ _ _ H) as (x1 & [] & H1 & HA). clear H. apply take_ok in H1. subst x1.
    destruct (bind_ok _ _ _ _ _ HA) as (x2 & w1 & H1 & HB). clear HA. apply KP in H1 as (K1 & K2 & K3); [|apply reads_two_out|isnt].
    destruct (bind_ok _ _ _ _ _ HB) as (x3 & w2 & H1 & HA). clear HB. apply KP in H1 as (L1 & L2 & L3); [|apply reads_two_in|isnt].
    destruct (bind_ok _ _ _ _ _ HA) as (x4 & q1 & H1 & HB). clear HA. apply over_ok in H1 as (_ & _ & _ & ->).
    destruct (bind_ok _ _ _ _ _ HB) as (x5 & [] & H1 & HA). clear HB. unfold setattr, modS in H1. injection H1 as <-.
    destruct (bind_ok _ _ _ _ _ HA) as (x6 & w3 & H1 & HB). clear HA. apply KP in H1 as (M1 & M2 & M3); [|apply reads_two_out|isnt].
    destruct (bind_ok _ _ _ _ _ HB) as (x7 & w4 & H1 & HA). clear HB. apply KP in H1 as (N1 & N2 & N3); [|apply reads_two_in|isnt].
    destruct (bind_ok _ _ _ _ _ HA) as (x8 & q2 & H1 & HB). clear HA. apply over_ok in H1 as (_ & _ & _ & ->).
    unfold setattr, modS in HB. injection HB as <-. cbn [dv_opt dv_osim dv_sim] in *. intuition congruence. }
  destruct KO as (K1 & K2 & K3).
  assert (NT : forall k, List.In k ["omega"; "structure_type"; "NPML"; "l"; "dl"; "ny"; "Ny"] -> dv_dict d4 k = dv_dict d3 k).
  { intros k Hk. apply O4. intro HI. cbn [List.In] in Hk. repeat destruct Hk as [<-|Hk]; try contradiction; revert HI; isnt. }
  destruct (freq_run e d4 o s (2 * PI * (3 * 10 ^ 8) / 1)%R K1 K2 eq_refl P ltac:(rewrite SZ, HE; unfold s_M; rewrite X, Y; reflexivity)) as (d5 & Q3 & L1).
  { rewrite NT by inK. rewrite C4 by discriminate. rewrite B8 by inK. exact A6. }
  destruct (only_freq e 3 _ _ _ Q3) as [O5 _].
  assert (NF : forall k, List.In k ["structure_type"; "NPML"; "l"; "dl"; "ny"; "Ny"] -> dv_dict d5 k = dv_dict d3 k).
  { intros k Hk. rewrite O5, NT by (first [right; exact Hk|intro HI; cbn [List.In] in Hk; repeat destruct Hk as [<-|Hk]; try contradiction; revert HI; isnt]). reflexivity. }
  assert (RO : args_two_out d5 = (d5, Ok ("x", (-4, 3)%Z, 3%Z))).
  { destruct RD as (_ & a2 & a3' & a4 & a5 & a6 & _).
    unfold args_two_out, far, half_Ny, pixels, getitem, getint, getnum, getattr, bind, lift, ret.
    rewrite (NF "NPML") by inK. rewrite a2. cbn [List.nth_error]. rewrite (NF "l") by inK. rewrite a3'. cbn [as_num]. rewrite (NF "dl") by inK. rewrite a4. cbn [as_num]. rewrite div1, (NF "ny") by inK. rewrite a5, (NF "Ny") by inK. rewrite a6. cbn [as_num]. rewrite py_int_8, py_int_3. reflexivity. }
  assert (Q4 : exists d6, power_scan e 1 1 10 d5 = (d6, Ok tt)).
  { unfold power_scan, get_type, bind at 1 2, getattr, ret. rewrite NF by inK. rewrite (proj1 RD). cbn [scan_args String.eqb Ascii.eqb Bool.eqb]. unfold bind, getS, on_opt. rewrite L1.
    assert (SP : exists r, scan_power e (Some (List.map (probe_of d5) [args_two_out])) 1 1 10 "hybrid" (dv_opt d5, s) = ((dv_opt d5, s), Ok r)).
    { unfold scan_power. destruct (Rlt_dec 0 1); [|lra]. destruct (Rlt_dec 0 10); [|lra]. cbn [List.seq List.map power_loop].
      assert (SC : scan_scale 1 10 1 0 = 1%R) by (unfold scan_scale, linspace; cbn [Nat.leb]; unfold log10; rewrite ln_1; unfold Rdiv; rewrite Rmult_0_l; apply Rpower_O; lra). rewrite SC.
      unfold scan_point. cbn [snd]. change (s_modes s) with [mid_mode]. cbv iota zeta. change (with_scale mid_mode 1) with mid_mode. change (upd_modes [mid_mode] s) with s.
      assert (AG : exists s9 W9, setup_src e mid_mode s = (s9, Ok tt) /\ s_W_in s9 = Val W9 /\ s_pol s9 = PolEz /\ s_Nx s9 = 9%nat /\ s_Ny s9 = 6%nat /\ nd_size (s_src s9) = s_M s9).
      { destruct (uniform_mode_set_up (/ sqrt 3) 9 s0 (s_src s1) SQ HS ltac:(lia) N1 N2) as (s8 & ? & ? & ? & ? & W8 & R8 & _ & _ & _ & _ & _ & V8 & _).
        rewrite <- mkl_setup in R8. fold e in R8.
        apply (setup_W _ _ W) in R8. change (upd_W_in W (upd_src (s_src s1) s0)) with (upd_src (s_src s1) (upd_W_in W s0)) in R8. rewrite <- E1 in R8.
        assert (R9 := setup_transfer e mid_mode [mid_mode] (s_fields s1) s1 s8 R8). replace (upd_fields (s_fields s1) s1) with s1 in R9 by (destruct s1; reflexivity). fold s in R9.
        assert (I8 := R8). apply setup_src_inv in I8 as (_ & _ & _ & _ & _ & _ & _ & _ & _ & W9 & _ & E8).
        eexists _, W8. split; [exact R9|]. cbn [upd_modes upd_fields s_W_in s_pol s_Nx s_Ny s_src]. split; [exact V8|].
        assert (H1 := C55_only_the_line_is_written _ _ _ _ R8 0%nat 0%nat ltac:(rewrite N1; lia) ltac:(rewrite N2; lia)). destruct H1 as (U1 & U2 & _).
        rewrite E8. cbn [upd_src upd_W_in s_pol s_Nx s_Ny s_src]. change (s_pol s1) with (s_pol s). change (s_Nx s1) with (s_Nx s). change (s_Ny s1) with (s_Ny s).
        do 3 (split; [assumption|]). unfold s_M, nd_size. cbn [upd_src upd_W_in upd_modes upd_fields s_src s_Nx s_Ny]. change (s_Nx s1) with (s_Nx s). change (s_Ny s1) with (s_Ny s).
        rewrite U1, U2, N1, N2, X, Y. reflexivity. }
      destruct AG as (s9 & W9 & GS & GW & GP & GX' & GY & GZ). rewrite GS, GW.
      destruct (scan_solve_runs e s9 eq_refl GP GZ) as (s10 & SR & SS & dd9 & [[ja jb] JX] & FF). rewrite SR. cbn [run_probes]. unfold bind.
      unfold probe_of at 1. rewrite RO. cbn [fst snd].
      destruct (flux_runs s10 true) as (w & FW & _); [unfold same_problem in SS; intuition congruence|unfold same_problem in SS; intuition congruence|unfold same_problem in SS; intuition congruence|rewrite FF; discriminate|rewrite FF; discriminate|].
      rewrite FW. eexists. reflexivity. }
    destruct SP as (r & SP). rewrite SP. eexists. reflexivity. }
  destruct Q4 as (d6 & Q4).
  assert (GEN : exists d7, generate_data e 3 1 1 10 d2 = (d7, Ok tt)).
  { unfold generate_data, bind. rewrite Q1, Q2, Q3, Q4. eexists. reflexivity. }
  destruct GEN as (d7 & GEN). exists d7.
  split; [exact (sign_env_exact (fun _ => RtoC (/ sqrt 3)))|]. split; [intros q Hq; rewrite HNL in Hq; destruct Hq|].
  split. { assert (EA : s_M s = s_M s0 /\ s_A s = s_A s0) by (unfold s; rewrite E1; split; reflexivity). destruct EA as [-> ->]. exact HN. }
  split; [reflexivity|]. split.
  { change (s_src s) with (s_src s1). rewrite V1 by lia. unfold mode_profile. intro Q. apply (f_equal Re) in Q. cbn [Re RtoC fst] in Q.
    assert (PP: (0 < / sqrt 3)%R) by (apply Rinv_0_lt_compat, sqrt_lt_R0; lra).
    rewrite Cmod_mult, !Cmod_R, Rabs_R1 in Q. autorewrite with reim in Q. cbn [Re Im RtoC fst snd] in Q.
    replace (/ sqrt 3 * 1 - 0 * 0)%R with (/ sqrt 3)%R in Q by ring.
    destruct (np_sign_cases (/ sqrt 3)) as [[? E]|[[? E]|[? E]]]; try lra. rewrite E, Rabs_pos_eq in Q by lra. lra. }
  split; [exact X|]. split; [reflexivity|]. split; [exact HD|]. split; [rewrite D1; exact HSP|]. split; [exact O2|]. split; [rewrite S2; exact HSP|].
  split; [exact HP|]. split; [exact HG|]. split; [exact GEN|]. split; [exact B4|]. split; [|split; [|auto 10]].
  - intros i j Hi Hj HO. change (s_src s) with (s_src s1) in *. assert (H1 := C55_only_the_line_is_written _ _ _ _ R1 i j ltac:(rewrite Es; cbn; rewrite N1 in Hi; exact Hi) ltac:(rewrite Es; cbn; rewrite N2 in Hj; exact Hj)).
    destruct H1 as (U1 & U2 & _ & U3). rewrite U3; [rewrite Es; reflexivity|]. rewrite <- U1, <- U2. exact HO.
  - destruct (uniform_straight 9 s0 HS ltac:(lia)) as (_ & NTs & _).
    intros eps c EN'. rewrite HE in EN'. unfold norm_structure in EN'. change (md_normal mid_mode) with "x" in EN'. change (String.eqb "x" "x") with true in EN'. cbn iota in EN'.
    change (fst (md_center mid_mode)) with 2%Z in EN'. unfold py_index in EN'. cbn [nd_nx nd_ny] in EN'.
    change ((- Z.of_nat 9 <=? 2)%Z && (2 <? Z.of_nat 9)%Z)%bool with true in EN'. cbn iota in EN'. change (2 <? 0)%Z with false in EN'. cbn iota in EN'. change (Z.to_nat 2) with 2%nat in EN'.
    injection EN' as <- _. assert (EX : forall a, s_M (set_eps a s) = s_M (set_eps a s0) /\ s_A (set_eps a s) = s_A (set_eps a s0)) by (intro a0; unfold s; rewrite E1; split; reflexivity).
    match goal with |- nonsingular (s_M (set_eps ?q s)) _ => destruct (EX q) as [-> ->] end.
    replace (set_eps _ s0) with (norm_sim mid_mode s0 2); [exact NTs|]. unfold norm_sim. rewrite Ex, Ey, Ee. reflexivity.
Qed.
Example C91_met : exists e d d1 d2 d3, dev_history e d /\
  set_parameters 1 1 [0%Z; 0%Z] 0 2 1 d = (d1, Ok tt) /\
  set_geometry "two_port" [VNum 1; VNum 6; VNum 3; VNum 8; VNum 0; VNum 1; VInts [0%Z; 0%Z]; VArray (fun _ => 2%R)] d1 = (d2, Ok tt) /\
  dev_history e d2 /\ generate_data e 3 1 1 10 d2 = (d3, Ok tt) /\ dev_history e d3 /\ flag d3 "is_data_generated".
Proof.
  destruct device_example as (e & s & o & d & d1 & d2 & d3 & _ & _ & _ & _ & _ & _ & _ & HD & _ & _ & _ & HP & HG & H & _).
  assert (R0 : dev_history e d) by (eapply dh_new; exact HD).
  assert (R1 := dh_call e (CallParameters 1 1 [0%Z; 0%Z] 0 2 1) _ R0). cbn [call] in R1. rewrite HP in R1.
  assert (R2 := dh_call e (CallGeometry "two_port" [VNum 1; VNum 6; VNum 3; VNum 8; VNum 0; VNum 1; VInts [0%Z; 0%Z]; VArray (fun _ => 2%R)]) _ R1). cbn [call] in R2. cbn [fst] in R2. rewrite HG in R2.
  assert (R3 := dh_call e (CallGenerate 3 1 1 10) _ R2). cbn [call fst] in R3. rewrite H in R3. cbn [fst] in R3.
  exists e, d, d1, d2, d3. do 6 (split; [assumption|]).
  destruct (generate_ok _ _ _ _ _ _ _ (history_inv _ _ R2) H) as (_ & _ & x1 & x2 & x3 & x4 & _ & _ & _ & _ & -> & _). reflexivity.
Qed.
Example C96_met : exists e d d', dev_history e d /\ solver_exact e /\ no_nonlinearity (dv_sim d) /\ nonsingular (s_M (dv_sim d)) (s_A (dv_sim d)) /\
  dv_dict d "structure_type" = Some (VStr "two_port") /\ generate_data e 3 1 1 10 d = (d', Ok tt) /\ nd_at (s_src (dv_sim d)) 2 2 <> RtoC 0 /\
  s_modes (dv_osim d) = [mid_mode] /\ no_nonlinearity (dv_osim d) /\ no_other_source mid_mode (dv_osim d) /\
  nonsingular (s_M (dv_osim d)) (s_A (dv_osim d)) /\ straight_solvable mid_mode (dv_osim d).
Proof.
  destruct device_example as (e & s & o & d & d1 & d2 & d3 & He & Hq & HA & Hmo & H22 & _ & _ & HD & _ & EO & S2 & HP & HG & H & T & HO & HW & _).
  assert (R0 : dev_history e d) by (eapply dh_new; exact HD).
  assert (R1 := dh_call e (CallParameters 1 1 [0%Z; 0%Z] 0 2 1) _ R0). cbn [call] in R1. rewrite HP in R1.
  assert (R2 := dh_call e (CallGeometry "two_port" [VNum 1; VNum 6; VNum 3; VNum 8; VNum 0; VNum 1; VInts [0%Z; 0%Z]; VArray (fun _ => 2%R)]) _ R1). cbn [call] in R2. cbn [fst] in R2. rewrite HG in R2.
  exists e, d2, d3. split; [exact R2|]. split; [exact He|]. split; [eapply no_nl_same; eassumption|].
  destruct (same_system _ _ S2) as (-> & -> & _). split; [exact HA|]. split; [exact T|]. split; [exact H|].
  assert (ES : s_src (dv_sim d2) = s_src s) by (unfold same_problem in S2; intuition). rewrite ES, EO. auto 10.
Qed.
(** column 9 - 4 of the device of C91_met *)
Example C95_met : exists s w, s_Nx s = 9%nat /\ flux_probe "x" (-4, 3)%Z 3 false s = Ok w /\ flux_probe "x" (5, 3)%Z 3 false s = Ok w.
Proof.
  destruct (fam_sim_ok "Ez" 9 6 0 0 two_eps (or_introl eq_refl)) as [s0 HS]. destruct (fam_basic _ _ _ _ HS) as (Hp & Hd & HL & Ho & Ex & Ey & _).
  destruct (flux_runs (upd_fields (fun _ => Some (fun _ => RtoC 1)) s0) false Ex Ey Hp) as (w & A & B); [discriminate|discriminate|].
  exists (upd_fields (fun _ => Some (fun _ => RtoC 1)) s0), w. auto.
Qed.
