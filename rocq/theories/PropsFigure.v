(** C116: the figures of a stored device (data/plot_generator.py, data/TOC_generator.py). *)
From Coq Require Import Reals Lra Lia List ZArith Arith Bool String.
From Coquelicot Require Import Coquelicot.
From Verif Require Import Base Linear MCore MSim MFilter MOpt MMode MStruct MDevice MPlot MFigure Spec PCore PropsStruct PropsPlot PropsDevice.
Import ListNotations.
Local Open Scope string_scope.

(** ** Specification *)
(** the value in row r and column c of a panel *)
Definition drawn (m : mesh) (r c : nat) : R := nd_at (ms_data m) r c.
(** the panel has a coordinate for every row and column of an array of Ny rows and Nx columns *)
Definition panel_size (m : mesh) (rows cols : nat) : Prop :=
  nd_nx (ms_data m) = rows /\ nd_ny (ms_data m) = cols /\ List.length (ms_y m) = rows /\ List.length (ms_x m) = cols.
(** strength of a field at pixel (i, j) of a grid of Ny pixels in y, per root of the input power *)
Definition strength (Ny : nat) (F : vec) (W : R) (i j : nat) : R := (Cmod (F (i * Ny + j)%nat) / sqrt W)%R.
(** the points (x_k, y_k) of a line are those listed *)
Definition points (l : line) : list (R * option R) := List.combine (ln_x l) (ln_y l).

(** ** Getters *)
Lemma bind_ok {S A B} (m : St S A) (f : A -> St S B) s s' b : bind m f s = (s', Ok b) -> exists s1 a, m s = (s1, Ok a) /\ f a s1 = (s', Ok b).
Proof. unfold bind. destruct (m s) as [s1 [a|x]]; intro H; [eauto|discriminate]. Qed.
Lemma lift_ok {S A} (r : res A) (s s' : S) a : lift r s = (s', Ok a) -> s' = s /\ r = Ok a.
Proof. unfold lift. intro H. injection H as <- ->. auto. Qed.
Lemma getattr_ok n d d' v : getattr n d = (d', Ok v) -> d' = d /\ dv_dict d n = Some v.
Proof. unfold getattr. destruct (dv_dict d n); intro H; [injection H as <- <-; auto|discriminate]. Qed.
Lemma getattr_some n d v : dv_dict d n = Some v -> getattr n d = (d, Ok v).
Proof. intro H. unfold getattr. rewrite H. reflexivity. Qed.
Lemma getnum_ok n d d' x : getnum n d = (d', Ok x) -> d' = d /\ exists v, dv_dict d n = Some v /\ as_num v = Ok x.
Proof. intro H. apply bind_ok in H as (s1 & v & H1 & H2). apply getattr_ok in H1 as [-> H1]. apply lift_ok in H2 as [-> H2]. eauto. Qed.
Lemma getlist_ok n d d' x : getlist n d = (d', Ok x) -> d' = d /\ dv_dict d n = Some (VList x).
Proof. intro H. apply bind_ok in H as (s1 & v & H1 & H2). apply getattr_ok in H1 as [-> H1]. apply lift_ok in H2 as [-> H2]. destruct v; try discriminate. injection H2 as <-. auto. Qed.
Lemma getints_ok n d d' x : getints n d = (d', Ok x) -> d' = d /\ dv_dict d n = Some (VInts x).
Proof. intro H. apply bind_ok in H as (s1 & v & H1 & H2). apply getattr_ok in H1 as [-> H1]. apply lift_ok in H2 as [-> H2]. destruct v; try discriminate. injection H2 as <-. auto. Qed.
Lemma get_abs_ok n d d' x : get_abs n d = (d', Ok x) -> d' = d /\ exists F, dv_dict d n = Some (VField (Some F)) /\ x = mkNd (s_Nx (dv_sim d)) (s_Ny (dv_sim d)) (fun k => Cmod (F k)).
Proof.
  intro H. apply bind_ok in H as (s1 & v & H1 & H2). apply getattr_ok in H1 as [-> H1]. apply bind_ok in H2 as (s2 & w & H2 & H3). injection H2 as <- <-. apply lift_ok in H3 as [-> H3].
  destruct v as [| | | | | | | | |[F|]|]; try discriminate. injection H3 as <-. eauto.
Qed.
Lemma over_ok E d d' x : over_root_W_in E d = (d', Ok x) -> d' = d /\ exists W, dv_dict d "W_in" = Some (VNum W) /\ (0 < W)%R /\ x = nd_map (fun x => x / sqrt W)%R E.
Proof.
  intro H. apply bind_ok in H as (s1 & v & H1 & H2). apply getattr_ok in H1 as [-> H1]. apply lift_ok in H2 as [-> H2]. destruct v; try discriminate.
  destruct (Rlt_dec 0 x0); [|discriminate]. injection H2 as <-. eauto.
Qed.
Lemma trans_ok p d d' x : transmission p d = (d', Ok x) -> d' = d /\ exists t, dv_dict d "transmissions" = Some (VTable t) /\ List.nth_error t p = Some x.
Proof.
  intro H. apply bind_ok in H as (s1 & v & H1 & H2). apply getattr_ok in H1 as [-> H1]. apply lift_ok in H2 as [-> H2]. destruct v; try discriminate.
  destruct (List.nth_error t p) eqn:E; [|discriminate]. injection H2 as <-. eauto.
Qed.
Lemma plot_ok x y l : plot x y = Ok l -> l = mkLine x y /\ List.length x = List.length y.
Proof. unfold plot. destruct (Nat.eqb_spec (List.length x) (List.length y)); intro H; [injection H as <-; auto|discriminate]. Qed.
Lemma power_ok p d d' l : power_line p d = (d', Ok l) -> d' = d /\ exists P t T, dv_dict d "powers" = Some (VList P) /\ dv_dict d "transmissions" = Some (VTable t) /\ List.nth_error t p = Some T /\ List.length P = List.length T /\ l = mkLine P T.
Proof.
  intro H. apply bind_ok in H as (s1 & P & H1 & H2). apply getlist_ok in H1 as [-> H1]. apply bind_ok in H2 as (s2 & T & H2 & H3). apply trans_ok in H2 as [-> (t & H2 & H4)].
  apply lift_ok in H3 as [-> H3]. apply plot_ok in H3 as [-> H3]. split; [reflexivity|]. exists P, t, T. auto.
Qed.
Lemma dashed_ok d d' l : dashed d = (d', Ok l) -> d' = d /\ exists v W, dv_dict d "W_in" = Some v /\ as_num v = Ok W /\ l = mkLine [W; W] [Some 0%R; Some 1%R].
Proof.
  intro H. apply bind_ok in H as (s1 & W & H1 & H2). apply getnum_ok in H1 as [-> (v & H1 & H3)]. apply lift_ok in H2 as [-> H2]. apply plot_ok in H2 as [-> _]. split; [reflexivity|]. eauto.
Qed.
Lemma objective_ok d d' l : objective_axes d = (d', Ok l) -> d' = d /\ l = [mkLine (List.map INR (List.seq 1 (List.length (o_objs (dv_opt d))))) (List.map Some (o_objs (dv_opt d)))].
Proof.
  intro H. apply bind_ok in H as (s1 & W & H1 & H2). injection H1 as <- <-. cbv zeta in H2. apply bind_ok in H2 as (s2 & p & H2 & H3). apply lift_ok in H2 as [-> H2]. apply plot_ok in H2 as [-> _]. injection H3 as <- <-. auto.
Qed.
Lemma objective_always d : objective_axes d = (d, Ok [mkLine (List.map INR (List.seq 1 (List.length (o_objs (dv_opt d))))) (List.map Some (o_objs (dv_opt d)))]).
Proof. unfold objective_axes, bind, getS, lift, plot, ret. rewrite !map_length, seq_length, Nat.eqb_refl. reflexivity. Qed.
Lemma mesh_ok x y c lim m : pcolormesh x y c lim = Ok m -> m = mkMesh x y c lim None.
Proof. unfold pcolormesh. cbv zeta. destruct (_ && _)%bool; intro H; [injection H as <-; auto|discriminate]. Qed.
Lemma mesh_fits x y c lim : List.length x = nd_ny c -> List.length y = nd_nx c -> pcolormesh x y c lim = Ok (mkMesh x y c lim None).
Proof. intros A B. unfold pcolormesh. cbv zeta. rewrite A, B, !Nat.eqb_refl. reflexivity. Qed.
Lemma contour_ok z m m' : contour z m = Ok m' -> m' = mkMesh (ms_x m) (ms_y m) (ms_data m) (ms_limits m) (Some z) /\ List.length (ms_x m) = nd_ny z /\ List.length (ms_y m) = nd_nx z.
Proof.
  unfold contour. destruct (Nat.eqb_spec (List.length (ms_x m)) (nd_ny z)), (Nat.eqb_spec (List.length (ms_y m)) (nd_nx z)); cbn [andb]; try discriminate.
  destruct (Nat.leb 2 (nd_nx z) && Nat.leb 2 (nd_ny z))%bool; intro H; [injection H as <-; auto|discriminate].
Qed.

Lemma getS_ok {S} (s s' a : S) : getS s = (s', Ok a) -> s' = s /\ a = s.
Proof. unfold getS. intro H. injection H as <- <-. auto. Qed.

Ltac peel H := let s := fresh "s" in let a := fresh "a" in let H1 := fresh "H1" in
  apply bind_ok in H as (s & a & H1 & H);
  first [apply getnum_ok in H1 as [-> ?] | apply getlist_ok in H1 as [-> ?] | apply getints_ok in H1 as [-> ?] | apply get_abs_ok in H1 as [-> ?]
        | apply over_ok in H1 as [-> ?] | apply power_ok in H1 as [-> ?] | apply dashed_ok in H1 as [-> ?] | apply objective_ok in H1 as [-> ?]
        | apply getattr_ok in H1 as [-> ?] | match type of H1 with getS _ = _ => apply getS_ok in H1 as [-> ->] end | apply lift_ok in H1 as [-> H1] ]; cbv zeta in H.

(** ** The padded array *)
Lemma pad_inside a p v r c : (c < nd_nx a)%nat -> (r < nd_ny a)%nat -> nd_at (pad_array a p v) (p + r) c = nd_at a c r.
Proof.
  intros Hc Hr. unfold nd_at, pad_array. cbv zeta. cbn [nd_buf nd_ny]. assert (N : nd_nx a <> 0%nat) by lia.
  rewrite Nat.div_add_l, Nat.div_small, Nat.add_0_r by lia. replace (((p + r) * nd_nx a + c) mod nd_nx a)%nat with c by (rewrite Nat.add_comm, Nat.mod_add, Nat.mod_small by lia; reflexivity).
  destruct (Nat.leb_spec p (p + r)); [|lia]. destruct (Nat.ltb_spec (p + r) (p + nd_ny a)); [|lia]. cbn [andb].
  unfold nd_T, nd_at. cbn [nd_buf nd_ny nd_nx]. replace (p + r - p)%nat with r by lia. rewrite Nat.div_add_l, Nat.div_small, Nat.add_0_r by lia.
  replace ((r * nd_nx a + c) mod nd_nx a)%nat with c by (rewrite Nat.add_comm, Nat.mod_add, Nat.mod_small by lia; reflexivity). reflexivity.
Qed.
Lemma pad_outside a p v r c : (c < nd_nx a)%nat -> (r < p \/ p + nd_ny a <= r)%nat -> nd_at (pad_array a p v) r c = v.
Proof.
  intros Hc Hr. unfold nd_at, pad_array. cbv zeta. cbn [nd_buf nd_ny]. rewrite Nat.div_add_l, Nat.div_small, Nat.add_0_r by lia.
  destruct (Nat.leb_spec p r); destruct (Nat.ltb_spec r (p + nd_ny a)); cbn [andb]; try reflexivity; lia.
Qed.
Lemma map_at {T U} (f : T -> U) a i j : nd_at (nd_map f a) i j = f (nd_at a i j). Proof. reflexivity. Qed.
Lemma flip_T_at {T} (a : nd T) r c : (c < nd_nx a)%nat -> (r < nd_ny a)%nat -> nd_at (flipud (nd_T a)) r c = nd_at a c (nd_ny a - 1 - r).
Proof.
  intros Hc Hr. unfold nd_at, flipud, nd_T. cbn [nd_buf nd_ny nd_nx]. unfold nd_at. cbn [nd_buf nd_ny nd_nx].
  rewrite Nat.div_add_l, Nat.div_small, Nat.add_0_r by lia. replace ((r * nd_nx a + c) mod nd_nx a)%nat with c by (rewrite Nat.add_comm, Nat.mod_add, Nat.mod_small by lia; reflexivity).
  rewrite Nat.div_add_l, Nat.div_small, Nat.add_0_r by lia. replace (((nd_ny a - 1 - r) * nd_nx a + c) mod nd_nx a)%nat with c by (rewrite Nat.add_comm, Nat.mod_add, Nat.mod_small by lia; reflexivity). reflexivity.
Qed.
Lemma pad_list_length l p dl : List.length (pad_list l p dl) = (p + List.length l + p)%nat.
Proof. unfold pad_list. rewrite map_length, seq_length. lia. Qed.
Lemma pad_list_nth l p dl r : (r < p + List.length l + p)%nat -> List.nth r (pad_list l p dl) 0%R = (dl * (INR r - INR (List.length l + 2 * p) / 2))%R.
Proof.
  intro H. unfold pad_list. rewrite (nth_indep _ 0%R ((fun l0 => dl * (INR l0 - INR (List.length l + 2 * p) / 2))%R 0%nat)) by (rewrite map_length, seq_length; lia).
  rewrite (map_nth (fun l0 => dl * (INR l0 - INR (List.length l + 2 * p) / 2))%R). rewrite seq_nth by lia. reflexivity.
Qed.

(** ** C116: theorems *)
Lemma type_of d d' F t : plot_Device d = (d', Ok F) -> dv_dict d "structure_type" = Some (VStr t) ->
  (if String.eqb t "two_port" then plot_two_port else if String.eqb t "three_port" then plot_three_port else if String.eqb t "ortho_port" then plot_ortho_port else raise ValueError) d = (d', Ok F).
Proof. intros H E. unfold plot_Device, get_type, bind in H. rewrite (getattr_some _ _ _ E) in H. exact H. Qed.

(** The figure of a two-port: 50 rows of margin, the pixels of the device in their places, 50 rows of
    margin.  The panels are the permittivity, the linear and the nonlinear field per root of the input
    power, these two on the same colour scale and both outlined by the permittivity. *)
Theorem C116_two_port : forall d d' F, plot_Device d = (d', Ok F) -> dv_dict d "structure_type" = Some (VStr "two_port") ->
  let s := dv_sim d in let eps := s_eps s in let Nx := s_Nx s in let Ny := s_Ny s in nd_nx eps = Nx -> nd_ny eps = Ny ->
  d' = d /\ exists W A B, dv_dict d "W_in" = Some (VNum W) /\ (0 < W)%R /\ dv_dict d "Ez" = Some (VField (Some A)) /\ dv_dict d "Ez_nl" = Some (VField (Some B)) /\
  panel_size (f_eps F) (50 + Ny + 50) Nx /\ panel_size (f_lin F) (50 + Ny + 50) Nx /\ panel_size (f_nl F) (50 + Ny + 50) Nx /\
  (forall i j, (i < Nx)%nat -> (j < Ny)%nat ->
     drawn (f_eps F) (50 + j) i = nd_at eps i j /\ drawn (f_lin F) (50 + j) i = strength Ny A W i j /\ drawn (f_nl F) (50 + j) i = strength Ny B W i j) /\
  (forall i r, (i < Nx)%nat -> (r < 50 \/ 50 + Ny <= r < 50 + Ny + 50)%nat ->
     drawn (f_eps F) r i = 1%R /\ drawn (f_lin F) r i = (1 / 10 ^ 3 / sqrt W)%R /\ drawn (f_nl F) r i = (1 / 10 ^ 3 / sqrt W)%R) /\
  ms_limits (f_lin F) = ms_limits (f_nl F) /\ ms_outline (f_lin F) = Some (ms_data (f_eps F)) /\ ms_outline (f_nl F) = Some (ms_data (f_eps F)).
Proof.
  intros d d' F HF HT s eps Nx Ny EX EY. apply (type_of _ _ _ _ HF) in HT. clear HF. rename HT into H. cbn [String.eqb Ascii.eqb Bool.eqb] in H. unfold plot_two_port in H.
  repeat peel H. unfold ret in H. injection H as <- <-.
  repeat match goal with K : pcolormesh _ _ _ _ = Ok _ |- _ => apply mesh_ok in K; subst end.
  repeat match goal with K : contour _ _ = Ok _ |- _ => apply contour_ok in K as (-> & ? & ?); cbn [ms_x ms_y] in * end.
  repeat match goal with K : ex _ |- _ => destruct K | K : _ /\ _ |- _ => destruct K end.
  repeat match goal with K1 : dv_dict d ?n = Some ?a, K2 : dv_dict d ?n = Some ?b |- _ => lazymatch a with b => fail | _ => assert (b = a) by congruence; clear K2 end end.
  repeat match goal with K : VNum _ = VNum _ |- _ => injection K as -> | K : VList _ = VList _ |- _ => injection K as ->  | K : VTable _ = VTable _ |- _ => injection K as -> end.
  subst. split; [reflexivity|]. cbn [f_eps f_lin f_nl ms_x ms_y ms_data ms_limits ms_outline].
  rename x7 into W, x8 into A, x6 into B. exists W, A, B. fold s eps Nx Ny.
  assert (LX : List.length a9 = Nx) by (rewrite <- EX; assumption).
  assert (LY : List.length (pad_list a8 50 a4) = (50 + Ny + 50)%nat) by (rewrite <- EY; assumption).
  do 4 (split; [assumption|]). split; [|split; [|split; [|split; [|split; [|auto]]]]].
  - split; [|split; [|split]]; cbn [ms_data ms_x ms_y pad_array nd_nx nd_ny]; congruence.
  - split; [|split; [|split]]; cbn [ms_data ms_x ms_y nd_map pad_array nd_nx nd_ny]; congruence.
  - split; [|split; [|split]]; cbn [ms_data ms_x ms_y nd_map pad_array nd_nx nd_ny]; congruence.
  - intros i j Hi Hj. unfold drawn, strength. cbn [ms_data]. rewrite !map_at, !pad_inside by (cbn [nd_nx nd_ny]; lia). auto.
  - intros i r Hi Hr. unfold drawn. cbn [ms_data]. rewrite !map_at, !pad_outside by (cbn [nd_nx nd_ny]; lia). auto.
Qed.

Ltac inv_figure H := repeat peel H; unfold ret in H; injection H as <- <-;
  repeat match goal with K : pcolormesh _ _ _ _ = Ok _ |- _ => apply mesh_ok in K; subst end;
  repeat match goal with K : contour _ _ = Ok _ |- _ => apply contour_ok in K as (-> & ? & ?); cbn [ms_x ms_y ms_data ms_limits] in * end;
  repeat match goal with K : ex _ |- _ => destruct K | K : _ /\ _ |- _ => destruct K end.
Ltac one_value d := repeat match goal with K1 : dv_dict d ?n = Some ?a, K2 : dv_dict d ?n = Some ?b |- _ => lazymatch a with b => fail | _ => assert (b = a) by congruence; clear K2 end end;
  repeat match goal with K : VNum _ = VNum _ |- _ => injection K as -> | K : VList _ = VList _ |- _ => injection K as -> | K : VTable _ = VTable _ |- _ => injection K as -> end.

(** the sketch of a two-port is the structure that two_port builds from the stored arguments, filled
    with eps_m (not with the stored eps_start) *)
Theorem C116_two_port_sketch : forall d d' F, plot_Device d = (d', Ok F) -> dv_dict d "structure_type" = Some (VStr "two_port") ->
  exists L H w l spc dl em NPML st, (forall n x, List.In (n, x) [("L", L); ("H", H); ("w", w); ("l", l); ("spc", spc); ("dl", dl); ("eps_m", em)] -> exists v, dv_dict d n = Some v /\ as_num v = Ok x) /\
  dv_dict d "NPML" = Some (VInts NPML) /\ two_port L H w l spc dl NPML em = Ok st /\
  forall i j, (i < nd_nx (fst st))%nat -> (j < nd_ny (fst st))%nat -> drawn (f_drawing F) (50 + j) i = nd_at (fst st) i j.
Proof.
  intros d d' F HF HT. apply (type_of _ _ _ _ HF) in HT. clear HF. rename HT into H. cbn [String.eqb Ascii.eqb Bool.eqb] in H. unfold plot_two_port in H. inv_figure H.
  exists a, a0, a1, a2, a3, a4, a6, a5, a7. split; [|split; [assumption|split; [assumption|]]].
  - intros n z [Q|[Q|[Q|[Q|[Q|[Q|[Q|[]]]]]]]]; injection Q as <- <-; eauto.
  - intros i j Hi Hj. unfold drawn. cbn [f_drawing ms_data]. apply pad_inside; assumption.
Qed.

Lemma nth_points x y k : List.length x = List.length y -> (k < List.length y)%nat -> List.nth_error (points (mkLine x y)) k = Some (List.nth k x 0%R, List.nth k y None).
Proof.
  intros E Hk. unfold points. cbn [ln_x ln_y]. rewrite <- (combine_nth _ _ _ _ _ E). apply nth_error_nth'. rewrite combine_length, E. lia.
Qed.
(** the objective of iteration k, counted from 1 *)
Definition shows_objectives (l : line) (J : list R) : Prop :=
  List.length (points l) = List.length J /\ forall k, (k < List.length J)%nat -> List.nth_error (points l) k = Some (INR (k + 1), Some (List.nth k J 0%R)).
(** transmission against input power *)
Definition shows_transmissions (l : line) (P : list R) (T : list (option R)) : Prop :=
  List.length P = List.length T /\ List.length (points l) = List.length P /\ forall k, (k < List.length P)%nat -> List.nth_error (points l) k = Some (List.nth k P 0%R, List.nth k T None).
Lemma objectives_shown J : shows_objectives (mkLine (List.map INR (List.seq 1 (List.length J))) (List.map Some J)) J.
Proof.
  assert (E : List.length (List.map INR (List.seq 1 (List.length J))) = List.length (List.map Some J)) by (rewrite !map_length, seq_length; reflexivity).
  split; [unfold points; cbn [ln_x ln_y]; rewrite combine_length, E, map_length; lia|]. intros k Hk. rewrite nth_points by (rewrite ?map_length, ?seq_length; lia). f_equal. f_equal.
  - rewrite (nth_indep _ 0%R (INR 0)) by (rewrite map_length, seq_length; lia). rewrite map_nth, seq_nth by lia. f_equal. lia.
  - rewrite (nth_indep _ None (Some 0%R)) by (rewrite map_length; lia). apply map_nth.
Qed.
Lemma transmissions_shown P T : List.length P = List.length T -> shows_transmissions (mkLine P T) P T.
Proof.
  intro E. split; [exact E|]. split; [unfold points; cbn [ln_x ln_y]; rewrite combine_length, E; lia|]. intros k Hk. apply nth_points; lia.
Qed.
(** The curves: the objective function of every iteration, the transmission of the first probe (for an
    ortho-port of both probes) against the power, and a vertical line at the input power. *)
Theorem C116_curves : forall d d' F t, plot_Device d = (d', Ok F) -> dv_dict d "structure_type" = Some (VStr t) ->
  exists l ls m W P T v, f_obj F = [l] /\ shows_objectives l (o_objs (dv_opt d)) /\ dv_dict d "powers" = Some (VList P) /\ dv_dict d "transmissions" = Some (VTable T) /\
  dv_dict d "W_in" = Some v /\ as_num v = Ok W /\ f_power F = (ls ++ [m])%list /\ points m = [(W, Some 0%R); (W, Some 1%R)] /\
  List.length ls = (if String.eqb t "two_port" then 1 else 2)%nat /\
  forall p c, List.nth_error ls p = Some c -> exists Tp, List.nth_error T p = Some Tp /\ shows_transmissions c P Tp.
Proof.
  intros d d' F t HF HT. apply (type_of _ _ _ _ HF) in HT. clear HF. rename HT into H. destruct (String.eqb t "two_port").
  - unfold plot_two_port in H. inv_figure H. one_value d. subst. cbn [f_obj f_power]. eexists _, [_], _, _, _, _, _. split; [reflexivity|]. split; [apply objectives_shown|].
    split; [eassumption|]. split; [eassumption|]. split; [eassumption|]. split; [first [eassumption|reflexivity]|]. split; [reflexivity|]. split; [reflexivity|]. split; [reflexivity|].
    intros [|[|p]] c Q; try discriminate. injection Q as <-. eexists. split; [eassumption|]. apply transmissions_shown. assumption.
  - destruct (String.eqb t "three_port").
    + exfalso. unfold plot_three_port in H. do 8 peel H. apply bind_ok in H as (q & z & K & _). apply lift_ok in K as [_ K]. discriminate.
    + destruct (String.eqb t "ortho_port"); [|discriminate]. unfold plot_ortho_port, ortho_field in H. 
      repeat (peel H || (apply bind_ok in H as (? & ? & ? & H); match goal with K : bind _ _ _ = _ |- _ => peel K; apply over_ok in K as [-> ?] end)). unfold ret in H. injection H as <- <-.
      repeat match goal with K : ex _ |- _ => destruct K | K : _ /\ _ |- _ => destruct K end. one_value d. subst. cbn [f_obj f_power].
      eexists _, [_; _], _, _, _, _, _. split; [reflexivity|]. split; [apply objectives_shown|].
      split; [eassumption|]. split; [eassumption|]. split; [eassumption|]. split; [first [eassumption|reflexivity]|]. split; [reflexivity|]. split; [reflexivity|]. split; [reflexivity|].
      intros [|[|[|p]]] c Q; try discriminate; injection Q as <-; eexists; (split; [eassumption|]); apply transmissions_shown; assumption.
Qed.

(** ** Which devices are drawn *)
Lemma getnum_some n d x : dv_dict d n = Some (VNum x) -> getnum n d = (d, Ok x).
Proof. intro H. unfold getnum, bind. rewrite (getattr_some _ _ _ H). reflexivity. Qed.
Lemma getlist_some n d x : dv_dict d n = Some (VList x) -> getlist n d = (d, Ok x).
Proof. intro H. unfold getlist, bind. rewrite (getattr_some _ _ _ H). reflexivity. Qed.
Lemma getints_some n d x : dv_dict d n = Some (VInts x) -> getints n d = (d, Ok x).
Proof. intro H. unfold getints, bind. rewrite (getattr_some _ _ _ H). reflexivity. Qed.
Lemma get_abs_some n d F : dv_dict d n = Some (VField (Some F)) -> get_abs n d = (d, Ok (mkNd (s_Nx (dv_sim d)) (s_Ny (dv_sim d)) (fun k => Cmod (F k)))).
Proof. intro H. unfold get_abs, bind. rewrite (getattr_some _ _ _ H). reflexivity. Qed.
Lemma over_some E d W : dv_dict d "W_in" = Some (VNum W) -> (0 < W)%R -> over_root_W_in E d = (d, Ok (nd_map (fun x => x / sqrt W)%R E)).
Proof. intros H HW. unfold over_root_W_in, bind. rewrite (getattr_some _ _ _ H). unfold lift. destruct (Rlt_dec 0 W); [reflexivity|contradiction]. Qed.
Lemma power_some p d P T t : dv_dict d "powers" = Some (VList P) -> dv_dict d "transmissions" = Some (VTable T) -> List.nth_error T p = Some t -> List.length P = List.length t ->
  power_line p d = (d, Ok (mkLine P t)).
Proof.
  intros HP HT Hp E. unfold power_line, bind. rewrite (getlist_some _ _ _ HP). unfold transmission, bind. rewrite (getattr_some _ _ _ HT). unfold lift. rewrite Hp.
  unfold plot. rewrite E, Nat.eqb_refl. reflexivity.
Qed.
Lemma dashed_some d W : dv_dict d "W_in" = Some (VNum W) -> exists l, dashed d = (d, Ok l).
Proof. intro H. unfold dashed, bind. rewrite (getnum_some _ _ _ H). unfold lift, plot. eexists. reflexivity. Qed.
Lemma max_some (a : nd R) : (0 < nd_nx a)%nat -> (0 < nd_ny a)%nat -> exists m, nd_max a = Ok m.
Proof. intros A B. unfold nd_max. destruct (nd_size a) eqn:E; [exfalso; unfold nd_size in E; nia|eauto]. Qed.
Lemma contour_fits z m : List.length (ms_x m) = nd_ny z -> List.length (ms_y m) = nd_nx z -> (2 <= nd_nx z)%nat -> (2 <= nd_ny z)%nat -> exists m', contour z m = Ok m'.
Proof. intros A B C D. unfold contour. rewrite A, B, !Nat.eqb_refl. apply Nat.leb_le in C, D. rewrite C, D. eexists. reflexivity. Qed.
Lemma bind_some {S A B} (m : St S A) (f : A -> St S B) s a : m s = (s, Ok a) -> bind m f s = f a s.
Proof. intro H. unfold bind. rewrite H. reflexivity. Qed.
Lemma lift_some {S A} (r : res A) (s : S) a : r = Ok a -> lift r s = (s, Ok a).
Proof. intros ->. reflexivity. Qed.

(** what a complete device holds: grid, fields and data that belong together *)
Record complete (d : device) (Nx Ny nT : nat) : Prop := mkComplete {
  cp_eps : nd_nx (s_eps (dv_sim d)) = Nx /\ nd_ny (s_eps (dv_sim d)) = Ny;
  cp_size : s_Nx (dv_sim d) = Nx /\ s_Ny (dv_sim d) = Ny /\ (2 <= Nx)%nat /\ (2 <= Ny)%nat;
  cp_x : exists l, dv_dict d "x_range" = Some (VList l) /\ List.length l = Nx;
  cp_y : exists l, dv_dict d "y_range" = Some (VList l) /\ List.length l = Ny;
  cp_Ez : exists F, dv_dict d "Ez" = Some (VField (Some F));
  cp_Ez_nl : exists F, dv_dict d "Ez_nl" = Some (VField (Some F));
  cp_W : exists W, dv_dict d "W_in" = Some (VNum W) /\ (0 < W)%R;
  cp_lambda0 : exists l, dv_dict d "lambda0" = Some (VNum l) /\ l <> 0%R;
  cp_freqs : (exists l, dv_dict d "freqs" = Some (VList l)) /\ exists v, dv_dict d "objs" = Some v;
  cp_power : exists P T, dv_dict d "powers" = Some (VList P) /\ dv_dict d "transmissions" = Some (VTable T) /\
               (nT <= List.length T)%nat /\ forall t, List.In t T -> List.length t = List.length P }.

Ltac go := match goal with
  | K : dv_dict _ ?n = Some _ |- ex (fun F => bind (getnum ?n) _ _ = _) => rewrite (bind_some _ _ _ _ (getnum_some _ _ _ K))
  | K : dv_dict _ ?n = Some _ |- ex (fun F => bind (getlist ?n) _ _ = _) => rewrite (bind_some _ _ _ _ (getlist_some _ _ _ K))
  | K : dv_dict _ ?n = Some _ |- ex (fun F => bind (getints ?n) _ _ = _) => rewrite (bind_some _ _ _ _ (getints_some _ _ _ K))
  | K : dv_dict _ ?n = Some _ |- ex (fun F => bind (get_abs ?n) _ _ = _) => rewrite (bind_some _ _ _ _ (get_abs_some _ _ _ K))
  | K : dv_dict _ ?n = Some _ |- ex (fun F => bind (getattr ?n) _ _ = _) => rewrite (bind_some _ _ _ _ (getattr_some _ _ _ K))
  | K : dv_dict _ "W_in" = Some _, P : (0 < _)%R |- ex (fun F => bind (over_root_W_in _) _ _ = _) => rewrite (bind_some _ _ _ _ (over_some _ _ _ K P))
  | |- ex (fun F => bind objective_axes _ _ = _) => rewrite (bind_some _ _ _ _ (objective_always _))
  | |- ex (fun F => bind getS _ _ = _) => rewrite (bind_some getS _ _ _ eq_refl)
  end; cbv beta zeta.
Ltac go_lift E := rewrite (bind_some _ _ _ _ (lift_some _ _ _ E)); cbv beta zeta.

Theorem C116_two_port_returns : forall d Nx Ny L H w l spc dl NPML em st, complete d Nx Ny 1 -> dv_dict d "structure_type" = Some (VStr "two_port") ->
  dv_dict d "L" = Some (VNum L) -> dv_dict d "H" = Some (VNum H) -> dv_dict d "w" = Some (VNum w) -> dv_dict d "l" = Some (VNum l) ->
  dv_dict d "spc" = Some (VNum spc) -> dv_dict d "dl" = Some (VNum dl) -> dv_dict d "NPML" = Some (VInts NPML) -> dv_dict d "eps_m" = Some (VNum em) ->
  two_port L H w l spc dl NPML em = Ok st -> nd_nx (fst st) = Nx -> nd_ny (fst st) = Ny ->
  exists F, plot_Device d = (d, Ok F).
Proof.
  intros d Nx Ny L H w l spc dl NPML em st HC HT AL AH Aw Al As Ad AN Ae HS SX SY.
  destruct HC as [[EX EY] (GX & GY & N1 & N2) (xs & Ax & Lx) (ys & Ay & Ly) (E & AE) (E' & AE') (W & AW & HW) (l0 & A0 & Hl) ((fs & Af) & v & Av) (P & T & AP & AT & LT & HL)].
  unfold plot_Device, get_type. unfold bind at 1 2. rewrite (getattr_some _ _ _ HT). unfold ret at 1. cbn [String.eqb Ascii.eqb Bool.eqb].
  unfold plot_two_port. do 8 go. go_lift HS. do 2 go.
  assert (LY : List.length (pad_list ys 50 dl) = (50 + Ny + 50)%nat) by (rewrite pad_list_length, Ly; reflexivity).
  rewrite (bind_some _ _ _ _ (lift_some _ _ _ (mesh_fits xs (pad_list ys 50 dl) (pad_array (fst st) 50 1) None ltac:(cbn; congruence) ltac:(cbn -[pad_list Nat.add]; congruence)))). cbv beta zeta.
  go. set (EF := pad_array (s_eps (dv_sim d)) 50 1). assert (FX : nd_nx EF = (50 + Ny + 50)%nat) by (unfold EF; cbn -[Nat.add]; congruence). assert (FY : nd_ny EF = Nx) by exact EX.
  rewrite (bind_some _ _ _ _ (lift_some _ _ _ (mesh_fits xs (pad_list ys 50 dl) EF None ltac:(congruence) ltac:(congruence)))). cbv beta zeta.
  go. go. set (EL := nd_map _ _). assert (LX1 : nd_nx EL = (50 + Ny + 50)%nat) by (unfold EL; cbn -[Nat.add]; congruence). assert (LX2 : nd_ny EL = Nx) by exact GX.
  destruct (max_some EL) as [mx Hmx]; [lia|lia|]. go_lift Hmx.
  rewrite (bind_some _ _ _ _ (lift_some _ _ _ (mesh_fits xs (pad_list ys 50 dl) EL (Some (3%R, (mx / 1.5)%R)) ltac:(congruence) ltac:(congruence)))). cbv beta zeta.
  destruct (contour_fits EF (mkMesh xs (pad_list ys 50 dl) EL (Some (3%R, (mx / 1.5)%R)) None)) as [m3 H3]; [cbn [ms_x]; congruence|cbn [ms_y]; congruence|lia|lia|]. go_lift H3.
  go. go. set (EN := nd_map _ _). assert (LN1 : nd_nx EN = (50 + Ny + 50)%nat) by (unfold EN; cbn -[Nat.add]; congruence). assert (LN2 : nd_ny EN = Nx) by exact GX.
  rewrite (bind_some _ _ _ _ (lift_some _ _ _ (mesh_fits xs (pad_list ys 50 dl) EN (Some (3%R, (mx / 1.5)%R)) ltac:(congruence) ltac:(congruence)))). cbv beta zeta.
  destruct (contour_fits EF (mkMesh xs (pad_list ys 50 dl) EN (Some (3%R, (mx / 1.5)%R)) None)) as [m4 H4]; [cbn [ms_x]; congruence|cbn [ms_y]; congruence|lia|lia|]. go_lift H4.
  go. go. assert (HD : py_div (3 * 10 ^ 8) l0 = Ok (3 * 10 ^ 8 / l0)%R) by (unfold py_div; destruct (Req_EM_T l0 0); [contradiction|reflexivity]). go_lift HD.
  go. go. destruct T as [|t T]; [cbn in LT; lia|]. rewrite (bind_some _ _ _ _ (power_some 0 _ _ _ t AP AT eq_refl (eq_sym (HL t (or_introl eq_refl))))). cbv beta zeta.
  destruct (dashed_some _ _ AW) as [q Hq]. rewrite (bind_some _ _ _ _ Hq). cbv beta zeta. eexists. reflexivity.
Qed.
Theorem C116_ortho_port_returns : forall d Nx Ny L L2 H H2 w l dl NPML em st, complete d Nx Ny 2 -> dv_dict d "structure_type" = Some (VStr "ortho_port") ->
  dv_dict d "L" = Some (VNum L) -> dv_dict d "L2" = Some (VNum L2) -> dv_dict d "H" = Some (VNum H) -> dv_dict d "H2" = Some (VNum H2) -> dv_dict d "w" = Some (VNum w) -> dv_dict d "l" = Some (VNum l) ->
  dv_dict d "dl" = Some (VNum dl) -> dv_dict d "NPML" = Some (VInts NPML) -> dv_dict d "eps_m" = Some (VNum em) ->
  ortho_port L L2 H H2 w l dl NPML em = Ok st -> nd_nx (fst st) = Nx -> nd_ny (fst st) = Ny ->
  exists F, plot_Device d = (d, Ok F).
Proof.
  intros d Nx Ny L L2 H H2 w l dl NPML em st HC HT AL AL2 AH AH2 Aw Al Ad AN Ae HS SX SY.
  destruct HC as [[EX EY] (GX & GY & N1 & N2) (xs & Ax & Lx) (ys & Ay & Ly) (E & AE) (E' & AE') (W & AW & HW) _ _ (P & T & AP & AT & LT & HL)].
  unfold plot_Device, get_type. unfold bind at 1 2. rewrite (getattr_some _ _ _ HT). unfold ret at 1. cbn [String.eqb Ascii.eqb Bool.eqb].
  unfold plot_ortho_port. do 9 go. go_lift HS. do 2 go.
  rewrite (bind_some _ _ _ _ (lift_some _ _ _ (mesh_fits xs ys (flipud (nd_T (fst st))) None ltac:(cbn; congruence) ltac:(cbn; congruence)))). cbv beta zeta.
  go. set (EF := flipud (nd_T (s_eps (dv_sim d)))). assert (FX : nd_nx EF = Ny) by exact EY. assert (FY : nd_ny EF = Nx) by exact EX.
  rewrite (bind_some _ _ _ _ (lift_some _ _ _ (mesh_fits xs ys EF None ltac:(congruence) ltac:(congruence)))). cbv beta zeta.
  assert (OF : forall n F, dv_dict d n = Some (VField (Some F)) -> exists a, ortho_field n d = (d, Ok a) /\ nd_nx a = Ny /\ nd_ny a = Nx).
  { intros n F HF. unfold ortho_field. rewrite (bind_some _ _ _ _ (get_abs_some _ _ _ HF)). rewrite (over_some _ _ _ AW HW). eexists. split; [reflexivity|]. cbn. auto. }
  destruct (OF _ _ AE) as (EL & HEL & LX1 & LX2). destruct (OF _ _ AE') as (EN & HEN & LN1 & LN2).
  rewrite (bind_some _ _ _ _ HEL). cbv beta zeta. destruct (max_some EL) as [mx Hmx]; [lia|lia|]. go_lift Hmx.
  rewrite (bind_some _ _ _ _ (lift_some _ _ _ (mesh_fits xs ys EL (Some (8%R, (mx / 1.5)%R)) ltac:(congruence) ltac:(congruence)))). cbv beta zeta.
  destruct (contour_fits EF (mkMesh xs ys EL (Some (8%R, (mx / 1.5)%R)) None)) as [m3 H3]; [cbn [ms_x]; congruence|cbn [ms_y]; congruence|lia|lia|]. go_lift H3.
  rewrite (bind_some _ _ _ _ HEN). cbv beta zeta.
  rewrite (bind_some _ _ _ _ (lift_some _ _ _ (mesh_fits xs ys EN (Some (8%R, (mx / 1.5)%R)) ltac:(congruence) ltac:(congruence)))). cbv beta zeta.
  destruct (contour_fits EF (mkMesh xs ys EN (Some (8%R, (mx / 1.5)%R)) None)) as [m4 H4]; [cbn [ms_x]; congruence|cbn [ms_y]; congruence|lia|lia|]. go_lift H4.
  go. destruct T as [|t [|t2 T]]; [cbn in LT; lia|cbn in LT; lia|].
  rewrite (bind_some _ _ _ _ (power_some 0 _ _ _ t AP AT eq_refl (eq_sym (HL t (or_introl eq_refl))))). cbv beta zeta.
  rewrite (bind_some _ _ _ _ (power_some 1 _ _ _ t2 AP AT eq_refl (eq_sym (HL t2 (or_intror (or_introl eq_refl)))))). cbv beta zeta.
  destruct (dashed_some _ _ AW) as [q Hq]. rewrite (bind_some _ _ _ _ Hq). cbv beta zeta. eexists. reflexivity.
Qed.

(** ** Where the pixels are drawn *)
Lemma dev_range_nth n dl i : (i < n)%nat -> (2 <= n)%nat -> List.nth i (dev_range n dl) 0%R = (- INR n / 2 * dl + INR i * (INR n * dl / INR (n - 1)))%R.
Proof.
  intros Hi Hn. unfold dev_range. rewrite (nth_indep _ 0%R ((MStruct.linspace (- INR n / 2 * dl) (INR n / 2 * dl) n) 0%nat)) by (rewrite map_length, seq_length; lia).
  rewrite map_nth, seq_nth by lia. cbn [Nat.add]. unfold MStruct.linspace. destruct (Nat.leb_spec n 1); [lia|]. f_equal. f_equal. f_equal. field.
Qed.
Lemma dev_range_length n dl : List.length (dev_range n dl) = n. Proof. unfold dev_range. rewrite map_length, seq_length. reflexivity. Qed.
(** In the figure of a two-port the rows are dl apart, as the pixels of the simulation, but the columns are
    dl Nx/(Nx - 1) apart. *)
Theorem C116_two_port_positions : forall d d' F dl Nx Ny, plot_Device d = (d', Ok F) -> dv_dict d "structure_type" = Some (VStr "two_port") ->
  dv_dict d "dl" = Some (VNum dl) -> dv_dict d "x_range" = Some (VList (dev_range Nx dl)) -> dv_dict d "y_range" = Some (VList (dev_range Ny dl)) -> (2 <= Nx)%nat ->
  forall m, List.In m [f_drawing F; f_eps F; f_lin F; f_nl F] ->
  (forall j, (j < Ny)%nat -> List.nth (50 + j) (ms_y m) 0%R = (dl * (INR j - INR Ny / 2))%R) /\
  (forall i, (i < Nx)%nat -> List.nth i (ms_x m) 0%R = (dl * (INR i * (INR Nx / INR (Nx - 1)) - INR Nx / 2))%R).
Proof.
  intros d d' F dl Nx Ny HF HT Ad Ax Ay HN m Hm. apply (type_of _ _ _ _ HF) in HT. clear HF. rename HT into H. cbn [String.eqb Ascii.eqb Bool.eqb] in H. unfold plot_two_port in H. inv_figure H.
  one_value d. subst. match goal with K : as_num (VNum _) = Ok _ |- _ => idtac end.
  assert (EY : exists p q, m = mkMesh (dev_range Nx dl) (pad_list (dev_range Ny dl) 50 dl) p (fst q) (snd q)).
  { cbn [f_drawing f_eps f_lin f_nl] in Hm. destruct Hm as [<-|[<-|[<-|[<-|[]]]]].
    all: match goal with |- exists p q, mkMesh ?x (pad_list ?y _ ?z) ?pp ?l ?o = _ => exists pp, (l, o); assert (x = dev_range Nx dl) by congruence; assert (y = dev_range Ny dl) by congruence; assert (z = dl) by (cbn [as_num] in *; congruence); subst; reflexivity end. }
  destruct EY as (p & q & ->). cbn [ms_x ms_y]. split.
  - intros j Hj. rewrite pad_list_nth by (rewrite dev_range_length; lia). rewrite dev_range_length, !plus_INR, mult_INR. cbn [INR]. lra.
  - intros i Hi. rewrite dev_range_nth by assumption. assert (INR (Nx - 1) <> 0%R) by (apply not_0_INR; lia). field. assumption.
Qed.
(** so the pixels of these figures are never square *)
Theorem C116_square_pixels_refuted : forall d d' F dl Nx Ny, plot_Device d = (d', Ok F) -> dv_dict d "structure_type" = Some (VStr "two_port") ->
  dv_dict d "dl" = Some (VNum dl) -> dv_dict d "x_range" = Some (VList (dev_range Nx dl)) -> dv_dict d "y_range" = Some (VList (dev_range Ny dl)) -> (2 <= Nx)%nat -> (2 <= Ny)%nat -> dl <> 0%R ->
  (List.nth 1 (ms_x (f_eps F)) 0 - List.nth 0 (ms_x (f_eps F)) 0 <> List.nth 51 (ms_y (f_eps F)) 0 - List.nth 50 (ms_y (f_eps F)) 0)%R.
Proof.
  intros d d' F dl Nx Ny HF HT Ad Ax Ay HX HY Hd. destruct (C116_two_port_positions _ _ _ _ _ _ HF HT Ad Ax Ay HX (f_eps F) ltac:(right; left; reflexivity)) as [PY PX].
  assert (Y1 := PY 1%nat ltac:(lia)). assert (Y0 := PY 0%nat ltac:(lia)). cbn [Nat.add] in Y1, Y0. rewrite (PX 1%nat), (PX 0%nat), Y1, Y0 by lia. cbn [INR]. intro Q.
  assert (K : (dl * (INR Nx / INR (Nx - 1)) = dl * 1)%R) by lra. apply Rmult_eq_reg_l in K; [|exact Hd].
  assert (P : INR (Nx - 1) <> 0%R) by (apply not_0_INR; lia). assert (K2 : (INR Nx = INR (Nx - 1))%R) by (replace (INR Nx) with (INR Nx / INR (Nx - 1) * INR (Nx - 1))%R by (field; exact P); rewrite K; ring).
  apply INR_eq in K2. lia.
Qed.

(** The figure of an ortho-port is upside down: the value of pixel (i, j) is drawn at x_i and -y_j, where
    (x_i, y_j) are the coordinates of the pixel stored in the device. *)
Theorem C116_ortho_port_upside_down : forall d d' F dl Nx Ny, plot_Device d = (d', Ok F) -> dv_dict d "structure_type" = Some (VStr "ortho_port") ->
  let s := dv_sim d in let eps := s_eps s in nd_nx eps = Nx -> nd_ny eps = Ny -> s_Nx s = Nx -> s_Ny s = Ny -> (2 <= Ny)%nat ->
  dv_dict d "x_range" = Some (VList (dev_range Nx dl)) -> dv_dict d "y_range" = Some (VList (dev_range Ny dl)) ->
  d' = d /\ exists W A B, dv_dict d "W_in" = Some (VNum W) /\ (0 < W)%R /\ dv_dict d "Ez" = Some (VField (Some A)) /\ dv_dict d "Ez_nl" = Some (VField (Some B)) /\
  panel_size (f_eps F) Ny Nx /\ panel_size (f_lin F) Ny Nx /\ panel_size (f_nl F) Ny Nx /\
  (forall m, List.In m [f_eps F; f_lin F; f_nl F] -> ms_x m = dev_range Nx dl /\ ms_y m = dev_range Ny dl) /\
  ms_limits (f_lin F) = ms_limits (f_nl F) /\
  forall i j, (i < Nx)%nat -> (j < Ny)%nat -> exists r, (r < Ny)%nat /\ List.nth r (dev_range Ny dl) 0%R = (- List.nth j (dev_range Ny dl) 0%R)%R /\
    drawn (f_eps F) r i = nd_at eps i j /\ drawn (f_lin F) r i = strength Ny A W i j /\ drawn (f_nl F) r i = strength Ny B W i j.
Proof.
  intros d d' F dl Nx Ny HF HT s eps EX EY GX GY HN Ax Ay. apply (type_of _ _ _ _ HF) in HT. clear HF. rename HT into H. cbn [String.eqb Ascii.eqb Bool.eqb] in H.
  assert (SYM : forall j, (j < Ny)%nat -> List.nth (Ny - 1 - j) (dev_range Ny dl) 0%R = (- List.nth j (dev_range Ny dl) 0%R)%R).
  { intros j Hj. rewrite !dev_range_nth by lia. replace (Ny - 1 - j)%nat with ((Ny - 1) - j)%nat by lia. rewrite (minus_INR (Ny - 1) j) by lia. assert (P : INR (Ny - 1) <> 0%R) by (apply not_0_INR; lia). field. exact P. }
  assert (LX := dev_range_length Nx dl). assert (LY := dev_range_length Ny dl).
  unfold plot_ortho_port, ortho_field in H. repeat (peel H || (apply bind_ok in H as (? & ? & ? & H); match goal with K : bind _ _ _ = _ |- _ => peel K; apply over_ok in K as [-> ?] end)). unfold ret in H. injection H as <- <-.
  repeat match goal with K : pcolormesh _ _ _ _ = Ok _ |- _ => apply mesh_ok in K; subst end.
  repeat match goal with K : contour _ _ = Ok _ |- _ => apply contour_ok in K as (-> & ? & ?); cbn [ms_x ms_y ms_data ms_limits] in * end.
  repeat match goal with K : ex _ |- _ => destruct K | K : _ /\ _ |- _ => destruct K end. revert SYM LX LY. one_value d. subst. intros SYM LX LY. split; [reflexivity|].
  cbn [f_eps f_lin f_nl ms_x ms_y ms_data ms_limits ms_outline].
  rename x11 into W, x12 into A, x10 into B. exists W, A, B. fold s eps. do 4 (split; [assumption|]).
  split; [|split; [|split; [|split; [|split; [reflexivity|]]]]].
  - split; [reflexivity|]. split; [reflexivity|]. split; assumption.
  - split; [exact GY|]. split; [exact GX|]. split; assumption.
  - split; [exact GY|]. split; [exact GX|]. split; assumption.
  - intros m [<-|[<-|[<-|[]]]]; split; reflexivity.
  - intros i j Hi Hj. exists (nd_ny eps - 1 - j)%nat. split; [lia|]. split; [apply SYM; exact Hj|]. unfold drawn, strength. cbn [ms_data]. rewrite !map_at, !flip_T_at by (cbn [nd_nx nd_ny]; lia). cbn [nd_ny nd_nx].
    rewrite GY. replace (nd_ny eps - 1 - (nd_ny eps - 1 - j))%nat with j by lia. auto.
Qed.


(** so a pixel is not drawn in its place unless its mirror image has the same value *)
Theorem C116_in_place_refuted : forall d d' F, plot_Device d = (d', Ok F) -> dv_dict d "structure_type" = Some (VStr "ortho_port") ->
  let eps := s_eps (dv_sim d) in forall i j, (i < nd_nx eps)%nat -> (j < nd_ny eps)%nat -> nd_at eps i j <> nd_at eps i (nd_ny eps - 1 - j) ->
  drawn (f_eps F) j i <> nd_at eps i j.
Proof.
  intros d d' F HF HT eps i j Hi Hj HE. apply (type_of _ _ _ _ HF) in HT. clear HF. rename HT into H. cbn [String.eqb Ascii.eqb Bool.eqb] in H.
  unfold plot_ortho_port, ortho_field in H. repeat (peel H || (apply bind_ok in H as (? & ? & ? & H); match goal with K : bind _ _ _ = _ |- _ => peel K; apply over_ok in K as [-> ?] end)). unfold ret in H. injection H as <- <-.
  repeat match goal with K : pcolormesh _ _ _ _ = Ok _ |- _ => apply mesh_ok in K; subst end. unfold drawn. cbn [f_eps ms_data]. rewrite flip_T_at by assumption. intro Q. apply HE. symmetry. exact Q.
Qed.

(** ** What is never drawn *)
(** no three-port is drawn: plot_three_port passes eight arguments to a function of nine *)
Theorem C116_three_port_refuted : forall d, dv_dict d "structure_type" = Some (VStr "three_port") ->
  (exists x, plot_Device d = (d, Raise x)) /\
  forall e, dev_history e d -> flag d "are_parameters_set" -> flag d "is_geometry_set" -> plot_Device d = (d, Raise TypeError).
Proof.
  intros d HT.
  assert (K : plot_Device d = plot_three_port d) by (unfold plot_Device, get_type, bind; rewrite (getattr_some _ _ _ HT); reflexivity). rewrite K. split.
  - unfold plot_three_port. unfold bind, getattr.
    repeat match goal with |- context [match dv_dict d ?n with _ => _ end] => destruct (dv_dict d n); [|eexists; reflexivity] end. eexists. reflexivity.
  - intros e Hh HP HG. destruct (C91_flags_tell_the_truth e d Hh) as (P1 & P2 & _). destruct (P2 HG) as (t & Et & _ & Ha). rewrite HT in Et. injection Et as <-.
    assert (A : forall n, List.In n ["L"; "H"; "w"; "l"; "spc"; "dl"; "NPML"; "eps_m"] -> exists v, dv_dict d n = Some v).
    { intros n Hn. assert (Q : has d n). { destruct Hn as [<-|[<-|[<-|[<-|[<-|[<-|[<-|[<-|[]]]]]]]]]; first [apply Ha; cbn; tauto | apply (P1 HP); cbn; tauto]. } unfold has in Q. destruct (dv_dict d n); [eauto|contradiction]. }
    unfold plot_three_port. unfold bind, getattr.
    repeat match goal with |- context [match dv_dict d ?n with _ => _ end] => let v := fresh "v" in let E := fresh "E" in destruct (A n ltac:(cbn; tauto)) as [v E]; rewrite E; clear E end. reflexivity.
Qed.
(** the graphical abstract is never drawn, for no kind of device *)
Theorem C116_abstract_refuted : forall d, exists x, snd (toc_Device d) = Raise x.
Proof.
  intro d. destruct (toc_Device d) as [d' [F|x]] eqn:H; [exfalso|eexists; reflexivity]. apply bind_ok in H as (d1 & t & _ & H). destruct (String.eqb t "two_port"); [discriminate|]. destruct (String.eqb t "three_port"); [discriminate|].
  destruct (String.eqb t "ortho_port"); [|discriminate]. unfold toc_ortho_port in H. repeat apply bind_ok in H as (? & ? & _ & H). discriminate.
Qed.
(** a device of another kind, or without geometry, is refused *)
Theorem C116_unknown : forall d, (dv_dict d "structure_type" = None -> plot_Device d = (d, Raise AttributeError)) /\
  forall t, dv_dict d "structure_type" = Some (VStr t) -> ~ List.In t ["two_port"; "three_port"; "ortho_port"] -> plot_Device d = (d, Raise ValueError).
Proof.
  intro d. split; [intro H; unfold plot_Device, get_type, bind, getattr; rewrite H; reflexivity|]. intros t H N. unfold plot_Device, get_type, bind. rewrite (getattr_some _ _ _ H). cbn [ret].
  destruct (String.eqb_spec t "two_port"); [exfalso; subst; apply N; cbn; tauto|]. destruct (String.eqb_spec t "three_port"); [exfalso; subst; apply N; cbn; tauto|].
  destruct (String.eqb_spec t "ortho_port"); [exfalso; subst; apply N; cbn; tauto|]. reflexivity.
Qed.

(** The figure of the linear fields of a two-port does not depend on the power of the source: for a field c
    times as strong and an input power |c|^2 times as large it shows the same values. *)
Theorem C116_independent_of_power : forall d1 d2 F1 F2 A1 A2 W1 W2 c, plot_Device d1 = (d1, Ok F1) -> plot_Device d2 = (d2, Ok F2) ->
  dv_dict d1 "structure_type" = Some (VStr "two_port") -> dv_dict d2 "structure_type" = Some (VStr "two_port") ->
  dv_sim d2 = dv_sim d1 -> let s := dv_sim d1 in nd_nx (s_eps s) = s_Nx s -> nd_ny (s_eps s) = s_Ny s ->
  dv_dict d1 "Ez" = Some (VField (Some A1)) -> dv_dict d2 "Ez" = Some (VField (Some A2)) -> dv_dict d1 "W_in" = Some (VNum W1) -> dv_dict d2 "W_in" = Some (VNum W2) ->
  (forall k, A2 k = (c * A1 k)%C) -> W2 = (Cmod c ^ 2 * W1)%R ->
  forall i j, (i < s_Nx s)%nat -> (j < s_Ny s)%nat -> drawn (f_lin F2) (50 + j) i = drawn (f_lin F1) (50 + j) i.
Proof.
  intros d1 d2 F1 F2 A1 A2 W1 W2 c P1 P2 T1 T2 ES s EX EY E1 E2 V1 V2 HA HW i j Hi Hj.
  destruct (C116_two_port _ _ _ P1 T1 EX EY) as (_ & w1 & a1 & b1 & Q1 & L1 & R1 & _ & _ & _ & _ & D1 & _).
  destruct (C116_two_port _ _ _ P2 T2) as (_ & w2 & a2 & b2 & Q2 & L2 & R2 & _ & _ & _ & _ & D2 & _); [rewrite ES; exact EX|rewrite ES; exact EY|]. rewrite ES in D2.
  rewrite (proj1 (proj2 (D1 i j Hi Hj))), (proj1 (proj2 (D2 i j Hi Hj))). fold s.
  rewrite V1 in Q1. injection Q1 as <-. rewrite V2 in Q2. injection Q2 as <-. rewrite E1 in R1. injection R1 as <-. rewrite E2 in R2. injection R2 as <-.
  unfold strength. rewrite HA, Cmod_mult. rewrite HW in *. assert (Hc : Cmod c <> 0%R) by (intro Q; rewrite Q in L2; lra). assert (H0 := Cmod_ge_0 c). assert (S := sqrt_lt_R0 W1 L1).
  rewrite sqrt_mult_alt by (apply pow2_ge_0). rewrite sqrt_pow2 by lra. field. lra.
Qed.

(** the sketch of an ortho-port is what ortho_port builds from the stored arguments, upside down like the other panels *)
Theorem C116_ortho_port_sketch : forall d d' F, plot_Device d = (d', Ok F) -> dv_dict d "structure_type" = Some (VStr "ortho_port") ->
  (exists L L2 H H2 w l dl em NPML st, (forall n x, List.In (n, x) [("L", L); ("L2", L2); ("H", H); ("H2", H2); ("w", w); ("l", l); ("dl", dl); ("eps_m", em)] -> exists v, dv_dict d n = Some v /\ as_num v = Ok x) /\
  dv_dict d "NPML" = Some (VInts NPML) /\ ortho_port L L2 H H2 w l dl NPML em = Ok st /\
  forall i j, (i < nd_nx (fst st))%nat -> (j < nd_ny (fst st))%nat -> drawn (f_drawing F) (nd_ny (fst st) - 1 - j) i = nd_at (fst st) i j) /\
  ms_outline (f_lin F) = Some (ms_data (f_eps F)) /\ ms_outline (f_nl F) = Some (ms_data (f_eps F)).
Proof.
  intros d d' F HF HT. apply (type_of _ _ _ _ HF) in HT. clear HF. rename HT into H. cbn [String.eqb Ascii.eqb Bool.eqb] in H.
  unfold plot_ortho_port, ortho_field in H. repeat (peel H || (apply bind_ok in H as (? & ? & ? & H); match goal with K : bind _ _ _ = _ |- _ => peel K; apply over_ok in K as [-> ?] end)). unfold ret in H. injection H as <- <-.
  repeat match goal with K : pcolormesh _ _ _ _ = Ok _ |- _ => apply mesh_ok in K; subst end.
  repeat match goal with K : contour _ _ = Ok _ |- _ => apply contour_ok in K as (-> & ? & ?); cbn [ms_x ms_y ms_data ms_limits] in * end.
  repeat match goal with K : ex _ |- _ => destruct K | K : _ /\ _ |- _ => destruct K end. split; [|auto].
  exists a, a0, a1, a2, a3, a4, a5, a7, a6, a8. split; [|split; [assumption|split; [assumption|]]].
  - intros n z [Q|[Q|[Q|[Q|[Q|[Q|[Q|[Q|[]]]]]]]]]; injection Q as <- <-; eauto.
  - intros i j Hi Hj. unfold drawn. cbn [f_drawing ms_data]. rewrite flip_T_at by lia. f_equal. lia.
Qed.

(** both field panels have the same logarithmic scale, which ends at two thirds of the largest linear amplitude shown *)
Theorem C116_colour_scale : forall d d' F t, plot_Device d = (d', Ok F) -> dv_dict d "structure_type" = Some (VStr t) ->
  exists m, ms_limits (f_lin F) = Some (if String.eqb t "two_port" then 3 else 8, m / (3 / 2))%R /\ ms_limits (f_nl F) = ms_limits (f_lin F) /\
  let rows := nd_nx (ms_data (f_lin F)) in let cols := nd_ny (ms_data (f_lin F)) in
  (forall r c, (r < rows)%nat -> (c < cols)%nat -> (drawn (f_lin F) r c <= m)%R) /\ exists r c, (r < rows)%nat /\ (c < cols)%nat /\ drawn (f_lin F) r c = m.
Proof.
  assert (MX : forall (a : nd R) m, nd_max a = Ok m -> (forall r c, (r < nd_nx a)%nat -> (c < nd_ny a)%nat -> (nd_at a r c <= m)%R) /\ exists r c, (r < nd_nx a)%nat /\ (c < nd_ny a)%nat /\ nd_at a r c = m).
  { intros a m E. assert (P : (0 < nd_size a)%nat) by (unfold nd_max in E; destruct (nd_size a); [discriminate|lia]). destruct (PropsPlot.nd_max_spec a P) as (v & E2 & B & k & Hk & Ek). rewrite E in E2. injection E2 as <-.
    unfold nd_size in *. split.
    - intros r c Hr Hc. apply B. nia.
    - assert (N : nd_ny a <> 0%nat) by nia. exists (k / nd_ny a)%nat, (k mod nd_ny a)%nat. split; [apply Nat.div_lt_upper_bound; nia|]. split; [apply Nat.mod_upper_bound; exact N|].
      unfold nd_at. rewrite (Nat.mul_comm (k / nd_ny a)), <- Nat.div_mod by exact N. exact Ek. }
  intros d d' F t HF HT. apply (type_of _ _ _ _ HF) in HT. clear HF. rename HT into H. destruct (String.eqb t "two_port").
  - unfold plot_two_port in H. inv_figure H. cbn [f_lin f_nl ms_limits ms_data]. match goal with K : nd_max _ = Ok ?m |- _ => exists m; apply MX in K; rename K into Q end.
    split; [do 2 f_equal; lra|]. split; [reflexivity|]. exact Q.
  - destruct (String.eqb t "three_port").
    + exfalso. unfold plot_three_port in H. do 8 peel H. apply bind_ok in H as (q & z & K & _). apply lift_ok in K as [_ K]. discriminate.
    + destruct (String.eqb t "ortho_port"); [|discriminate]. 
      unfold plot_ortho_port, ortho_field in H. repeat (peel H || (apply bind_ok in H as (? & ? & ? & H); match goal with K : bind _ _ _ = _ |- _ => peel K; apply over_ok in K as [-> ?] end)). unfold ret in H. injection H as <- <-.
      repeat match goal with K : pcolormesh _ _ _ _ = Ok _ |- _ => apply mesh_ok in K; subst end.
      repeat match goal with K : contour _ _ = Ok _ |- _ => apply contour_ok in K as (-> & ? & ?); cbn [ms_x ms_y ms_data ms_limits] in * end.
      cbn [f_lin f_nl ms_limits ms_data]. match goal with K : nd_max _ = Ok ?m |- _ => exists m; apply MX in K; rename K into Q end.
      split; [do 2 f_equal; lra|]. split; [reflexivity|]. exact Q.
Qed.

(** ** Examples *)
Lemma py_int_nat z : (0 <= z)%Z -> py_int (IZR z) = z.
Proof.
  intro H. apply IZR_le in H. apply PropsStruct.py_int_unique. split; intro; lra.
Qed.
Lemma ex_two_port : exists st, two_port 2 1 1 1 1 1 [1; 1]%Z 4 = Ok st /\ nd_nx (fst st) = 6%nat /\ nd_ny (fst st) = 5%nat.
Proof.
  unfold two_port, npml_at, py_div, rbind, build, grid_size, apply_regions. cbn [nth_error]. destruct (Req_EM_T 1 0); [lra|].
  replace ((2 * 1 + 2) / 1)%R with (IZR 4) by lra. replace ((1 + 2 * 1) / 1)%R with (IZR 3) by lra. rewrite !py_int_nat by lia. eexists. split; [reflexivity|]. split; reflexivity.
Qed.
Lemma ex_ortho_port : exists st, ortho_port 2 1 2 1 1 1 1 [1; 1]%Z 4 = Ok st /\ nd_nx (fst st) = 6%nat /\ nd_ny (fst st) = 6%nat.
Proof.
  unfold ortho_port, npml_at, py_div, rbind, build, grid_size, apply_regions. cbn [nth_error]. destruct (Req_EM_T 1 0); [lra|].
  replace ((2 * 1 + 2) / 1)%R with (IZR 4) by lra. rewrite !py_int_nat by lia. eexists. split; [reflexivity|]. split; reflexivity.
Qed.
(** a device with the attributes given by a list *)
Definition ex_dict (l : list (string * pyval)) : string -> option pyval := fun n => match List.find (fun p => String.eqb n (fst p)) l with Some p => Some (snd p) | None => None end.
Definition ex_common (Nx Ny : nat) : list (string * pyval) :=
  [("x_range", VList (dev_range Nx 1)); ("y_range", VList (dev_range Ny 1)); ("Ez", VField (Some (fun k => RtoC (INR k)))); ("Ez_nl", VField (Some (fun k => RtoC (INR (k + 1)))));
   ("W_in", VNum 4); ("lambda0", VNum 2); ("freqs", VList []); ("objs", VList []); ("powers", VList [1; 2]%R); ("transmissions", VTable [[Some 1; Some (1 / 2)]; [Some 0; None]]%R);
   ("L", VNum 2); ("L2", VNum 1); ("H2", VNum 1); ("w", VNum 1); ("l", VNum 1); ("spc", VNum 1); ("dl", VNum 1); ("NPML", VInts [1; 1]%Z); ("eps_m", VNum 4)].
Lemma ex_sim (a : nd R) : exists s, Simulation 1 a 1 (Some [1; 1]%Z) "Ez" 1 = Ok s /\ s_eps s = a /\ s_Nx s = nd_nx a /\ s_Ny s = nd_ny a.
Proof. unfold Simulation, check_inputs. destruct (Rlt_dec 0 1); [|lra]. eexists. split; [reflexivity|]. split; [reflexivity|]. split; reflexivity. Qed.
Lemma ex_complete s o so Nx Ny more : nd_nx (s_eps s) = Nx -> nd_ny (s_eps s) = Ny -> s_Nx s = Nx -> s_Ny s = Ny -> (2 <= Nx)%nat -> (2 <= Ny)%nat ->
  complete (mkDev s o so (ex_dict (ex_common Nx Ny ++ more)%list)) Nx Ny 2.
Proof.
  intros A B C D N1 N2. constructor; cbn [dv_sim dv_dict].
  - auto.
  - auto.
  - eexists. split; [reflexivity|apply dev_range_length].
  - eexists. split; [reflexivity|apply dev_range_length].
  - eexists. reflexivity.
  - eexists. reflexivity.
  - eexists. split; [reflexivity|lra].
  - eexists. split; [reflexivity|lra].
  - split; eexists; reflexivity.
  - eexists _, _. split; [reflexivity|]. split; [reflexivity|]. split; [cbn; lia|]. intros t [<-|[<-|[]]]; reflexivity.
Qed.
Example C116_met : forall o so,
  (exists d F, dv_opt d = o /\ complete d 6 5 1 /\ dv_dict d "structure_type" = Some (VStr "two_port") /\ plot_Device d = (d, Ok F)) /\
  (exists d F, dv_opt d = o /\ complete d 6 6 2 /\ dv_dict d "structure_type" = Some (VStr "ortho_port") /\ plot_Device d = (d, Ok F) /\
     nd_at (s_eps (dv_sim d)) 1 0 <> nd_at (s_eps (dv_sim d)) 1 (6 - 1 - 0)) /\
  exists d, dv_opt d = o /\ dv_osim d = so /\ dv_dict d "structure_type" = Some (VStr "three_port").
Proof.
  intros o so. split; [|split].
  - destruct ex_two_port as (st & ES & SX & SY). destruct (ex_sim (fst st)) as (s & _ & E1 & E2 & E3).
    set (d := mkDev s o so (ex_dict (ex_common 6 5 ++ [("H", VNum 1); ("structure_type", VStr "two_port")])%list)).
    assert (C : complete d 6 5 2) by (apply ex_complete; try lia; congruence).
    assert (C1 : complete d 6 5 1). { destruct C as [a1 a2 a3 a4 a5 a6 a7 a8 a9 (P & T & p1 & p2 & p3 & p4)]. constructor; try assumption. exists P, T. repeat split; try assumption. lia. }
    destruct (C116_two_port_returns d 6 5 2 1 1 1 1 1 [1; 1]%Z 4 st) as [F HF]; try reflexivity; try assumption. exists d, F. auto.
  - destruct ex_ortho_port as (st & ES & SX & SY). destruct (ex_sim (mkNd 6 6 (fun k => INR k))) as (s & _ & E1 & E2 & E3).
    set (d := mkDev s o so (ex_dict (ex_common 6 6 ++ [("H", VNum 2); ("structure_type", VStr "ortho_port")])%list)).
    assert (C : complete d 6 6 2) by (apply ex_complete; try lia; rewrite ?E1, ?E2, ?E3; reflexivity).
    destruct (C116_ortho_port_returns d 6 6 2 1 2 1 1 1 1 [1; 1]%Z 4 st) as [F HF]; try reflexivity; try assumption. exists d, F. split; [reflexivity|]. split; [exact C|]. split; [reflexivity|]. split; [exact HF|].
    cbn [dv_sim d]. rewrite E1. unfold nd_at. cbn [nd_buf nd_ny]. apply not_INR. lia.
  - exists (mkDev so o so (ex_dict [("structure_type", VStr "three_port")])). auto.
Qed.
