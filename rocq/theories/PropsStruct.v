(** C61-C63, C75, C76: the structures built by structures.py. *)
From Coq Require Import Reals Lra Lia List ZArith Arith Bool String Permutation.
From Coquelicot Require Import Coquelicot.
From Verif Require Import Base MCore MSim MStruct.
Import ListNotations.
Local Open Scope R_scope.

(* ------------------------------------------------------------------ *)
(** ** Specification *)

(** the integer part of a number, towards zero *)
Definition truncated (x : R) (z : Z) : Prop :=
  (0 <= x -> IZR z <= x < IZR z + 1) /\ (x < 0 -> IZR z - 1 < x <= IZR z).

(** coordinate of pixel i of n (at least two) pixels: centred on 0, from -n dl / 2 to n dl / 2 *)
Definition coordinate (n : nat) (dl : R) (i : nat) : R :=
  (INR i - (INR n - 1) / 2) * (INR n / (INR n - 1) * dl).

(** the array has value inside where P holds at the coordinates and outside elsewhere *)
Definition filled (P : R -> R -> Prop) (inside outside dl : R) (a : nd R) : Prop :=
  forall i j, (i < nd_nx a)%nat -> (j < nd_ny a)%nat ->
    let x := grid_coord (nd_nx a) dl i in let y := grid_coord (nd_ny a) dl j in
    (P x y -> nd_at a i j = inside) /\ (~ P x y -> nd_at a i j = outside).

(** a structure: permittivity eps of a material on background bg in the set P, design
    region 1 in the set Q and 0 elsewhere, on Nx times Ny pixels *)
Definition structure (Nx Ny : Z) (dl : R) (P Q : R -> R -> Prop) (material bg : R) (eps design : nd R) : Prop :=
  Z.of_nat (nd_nx eps) = Nx /\ Z.of_nat (nd_ny eps) = Ny /\
  nd_nx design = nd_nx eps /\ nd_ny design = nd_ny eps /\
  filled P material bg dl eps /\ filled Q 1 0 dl design.

Definition mirror_y (a : nd R) : Prop :=
  forall i j, (i < nd_nx a)%nat -> (j < nd_ny a)%nat -> nd_at a i j = nd_at a i (nd_ny a - 1 - j).
Definition mirror_x (a : nd R) : Prop :=
  forall i j, (i < nd_nx a)%nat -> (j < nd_ny a)%nat -> nd_at a i j = nd_at a (nd_nx a - 1 - i) j.

(* ------------------------------------------------------------------ *)
(** ** Lemmas *)

Lemma Rltb_spec a b : Rltb a b = true <-> a < b.
Proof. unfold Rltb. destruct (Rlt_dec a b); split; intro H; try reflexivity; try assumption; [discriminate H|contradiction]. Qed.
Lemma py_int_spec x : truncated x (py_int x).
Proof.
  unfold truncated, py_int. destruct (Rle_dec 0 x) as [H|H].
  - split; [intros _|lra]. destruct (base_Int_part x). lra.
  - split; [lra|intros _]. rewrite opp_IZR. destruct (base_Int_part (- x)). lra.
Qed.
Lemma py_int_unique x z : truncated x z -> py_int x = z.
Proof.
  intro H. assert (H' := py_int_spec x). destruct H as [A1 A2], H' as [B1 B2].
  assert (IZR (py_int x) - 1 < IZR z /\ IZR z - 1 < IZR (py_int x)).
  { destruct (Rle_dec 0 x) as [P|P].
    - specialize (A1 P). specialize (B1 P). lra.
    - specialize (A2 ltac:(lra)). specialize (B2 ltac:(lra)). lra. }
  destruct H as [H1 H2].
  assert (py_int x < z + 1)%Z. { apply lt_IZR. rewrite plus_IZR. lra. }
  assert (z < py_int x + 1)%Z. { apply lt_IZR. rewrite plus_IZR. lra. }
  lia.
Qed.
Lemma py_int_opp x : py_int (- x) = (- py_int x)%Z.
Proof.
  apply py_int_unique. destruct (py_int_spec x) as [A B]. split; rewrite opp_IZR; intro H.
  - destruct (Req_dec x 0) as [->|N]; [specialize (A ltac:(lra))|specialize (B ltac:(lra)); lra].
    assert (E: py_int 0 = 0%Z). { apply py_int_unique. split; intro; lra. } rewrite E. lra.
  - specialize (A ltac:(lra)). lra.
Qed.

Lemma grid_coord_eq n dl i : (2 <= n)%nat -> grid_coord n dl i = coordinate n dl i.
Proof.
  intro H. unfold grid_coord, linspace, coordinate. destruct (Nat.leb_spec n 1); [lia|].
  rewrite minus_INR by lia. simpl (INR 1). assert (INR n >= 2) by (apply le_INR in H; simpl in H; lra). field. lra.
Qed.
Lemma grid_coord_mirror n dl i : (2 <= n)%nat -> (i < n)%nat -> grid_coord n dl (n - 1 - i) = - grid_coord n dl i.
Proof.
  intros H Hi. rewrite !grid_coord_eq by assumption. unfold coordinate. rewrite !minus_INR by lia. simpl (INR 1). lra.
Qed.

Lemma fold_regions (l : list region) (x y a : R) : forall v : R,
  fold_left (fun (v : R) (reg : region) => if reg x y then a else v) l v = if existsb (fun reg : region => reg x y) l then a else v.
Proof.
  induction l as [|r l IH]; intro v; [reflexivity|]. cbn [fold_left existsb]. rewrite IH.
  destruct (r x y), (existsb _ l); reflexivity.
Qed.
Lemma div_pix n i j : (j < n)%nat -> ((i * n + j) / n = i)%nat.
Proof. intro H. rewrite Nat.div_add_l by lia. rewrite Nat.div_small by assumption. lia. Qed.
Lemma mod_pix n i j : (j < n)%nat -> ((i * n + j) mod n = j)%nat.
Proof. intro H. rewrite Nat.add_comm, Nat.mod_add by lia. apply Nat.mod_small; assumption. Qed.
Lemma apply_regions_spec regs Nx Ny dl a b m : apply_regions regs Nx Ny dl a b = Ok m ->
  nd_nx m = Nx /\ nd_ny m = Ny /\
  forall i j, (i < Nx)%nat -> (j < Ny)%nat ->
    nd_at m i j = if existsb (fun reg : region => reg (grid_coord Nx dl i) (grid_coord Ny dl j)) regs then a else b.
Proof.
  intro H. assert (H': m = mkNd Nx Ny (fun k =>
    fold_left (fun v (reg : region) => if reg (grid_coord Nx dl (k / Ny)) (grid_coord Ny dl (k mod Ny)) then a else v) regs b)).
  { unfold apply_regions in H. destruct regs; [injection H as <-; reflexivity|]. destruct (Nat.eqb _ _); [discriminate|].
    injection H as <-. reflexivity. }
  subst m. split; [reflexivity|]. split; [reflexivity|]. intros i j Hi Hj. unfold nd_at. cbn [nd_buf nd_ny].
  rewrite div_pix, mod_pix by assumption. apply fold_regions.
Qed.
Lemma apply_regions_ok regs Nx Ny dl a b : (0 < Nx)%nat -> (0 < Ny)%nat -> exists m, apply_regions regs Nx Ny dl a b = Ok m.
Proof.
  intros H1 H2. unfold apply_regions. destruct regs; [eexists; reflexivity|].
  destruct (Nat.eqb_spec (Nx * Ny) 0); [nia|eexists; reflexivity].
Qed.
(** a list of regions describes the set P *)
Definition describes (l : list region) (P : R -> R -> Prop) : Prop :=
  forall x y, existsb (fun reg : region => reg x y) l = true <-> P x y.
Lemma apply_regions_filled regs P Nx Ny dl a b m : describes regs P ->
  apply_regions regs Nx Ny dl a b = Ok m -> filled P a b dl m.
Proof.
  intros HD H. apply apply_regions_spec in H as (E1 & E2 & H). intros i j Hi Hj. cbv zeta. rewrite E1, E2 in *.
  rewrite (H i j Hi Hj). specialize (HD (grid_coord Nx dl i) (grid_coord Ny dl j)).
  destruct (existsb _ regs); split; intro HP; auto.
  - exfalso. apply HP, HD. reflexivity.
  - exfalso. destruct HD as [_ HD]. specialize (HD HP). discriminate.
Qed.
Lemma build_structure Nx Ny dl regs des P Q a b eps design :
  describes regs P -> describes des Q ->
  build Nx Ny dl regs des a b = Ok (eps, design) -> structure Nx Ny dl P Q a b eps design.
Proof.
  intros HP HQ H. unfold build, grid_size in H.
  destruct (Z.ltb_spec Nx 0); [discriminate|]. destruct (Z.ltb_spec Ny 0); [discriminate|]. cbn [rbind] in H.
  destruct (apply_regions regs _ _ _ _ _) as [e|] eqn:E1; [|discriminate]. cbn [rbind] in H.
  destruct (apply_regions des _ _ _ _ _) as [d|] eqn:E2; [|discriminate]. injection H as <- <-.
  assert (S1 := apply_regions_spec _ _ _ _ _ _ _ E1). assert (S2 := apply_regions_spec _ _ _ _ _ _ _ E2).
  destruct S1 as (A1 & A2 & _), S2 as (B1 & B2 & _).
  split; [rewrite A1; lia|]. split; [rewrite A2; lia|]. split; [cbn [nd_nx]; congruence|]. split; [cbn [nd_ny]; congruence|].
  split; [eapply apply_regions_filled; eassumption|].
  assert (F := apply_regions_filled _ _ _ _ _ _ _ _ HQ E2). intros i j Hi Hj. cbn [nd_nx nd_ny] in *.
  specialize (F i j Hi Hj). cbv zeta in *. unfold nd_at in *. cbn [nd_buf nd_ny]. destruct F as [F1 F2].
  split; intro HH; [rewrite F1 by assumption|rewrite F2 by assumption]; lra.
Qed.
Lemma build_ok Nx Ny dl regs des a b : (0 < Nx)%Z -> (0 < Ny)%Z -> exists r, build Nx Ny dl regs des a b = Ok r.
Proof.
  intros H1 H2. unfold build, grid_size. destruct (Z.ltb_spec Nx 0); [lia|]. destruct (Z.ltb_spec Ny 0); [lia|]. cbn [rbind].
  destruct (apply_regions_ok regs (Z.to_nat Nx) (Z.to_nat Ny) dl a b) as [e ->]; [lia|lia|]. cbn [rbind].
  destruct (apply_regions_ok des (Z.to_nat Nx) (Z.to_nat Ny) dl 2 1) as [d ->]; [lia|lia|]. eexists. reflexivity.
Qed.
Lemma build_raises Nx Ny dl regs des a b : (Nx <= 0)%Z \/ (Ny <= 0)%Z -> regs <> [] -> build Nx Ny dl regs des a b = Raise ValueError.
Proof.
  intros H HR. unfold build, grid_size. destruct (Z.ltb_spec Nx 0); [reflexivity|]. destruct (Z.ltb_spec Ny 0); [reflexivity|]. cbn [rbind].
  destruct regs as [|r l]; [contradiction|]. unfold apply_regions. destruct (Nat.eqb_spec (Z.to_nat Nx * Z.to_nat Ny) 0); [reflexivity|nia].
Qed.

Lemma describes_or r l P Q : (forall x y, r x y = true <-> P x y) -> describes l Q -> describes (r :: l) (fun x y => P x y \/ Q x y).
Proof.
  intros HP HQ x y. cbn [existsb]. rewrite orb_true_iff, HP. specialize (HQ x y). rewrite HQ. reflexivity.
Qed.
Lemma describes_nil : describes [] (fun _ _ => False).
Proof. intros x y. cbn. split; [discriminate|contradiction]. Qed.
Lemma describes_iff l P Q : describes l P -> (forall x y, P x y <-> Q x y) -> describes l Q.
Proof. intros H HE x y. rewrite (H x y). apply HE. Qed.
Lemma box_region_iff L H m x y : box_region L H m x y = true <-> Rabs x < L / 2 /\ Rabs (y - m) < H / 2.
Proof. unfold box_region. rewrite andb_true_iff, !Rltb_spec. reflexivity. Qed.
Lemma left_guide_iff y0 w x y : left_guide y0 w x y = true <-> x < 0 /\ Rabs (y - y0) < w / 2.
Proof. unfold left_guide. rewrite andb_true_iff, !Rltb_spec. reflexivity. Qed.
Lemma right_guide_iff y0 w x y : right_guide y0 w x y = true <-> 0 < x /\ Rabs (y - y0) < w / 2.
Proof. unfold right_guide. rewrite andb_true_iff, !Rltb_spec. reflexivity. Qed.
Lemma through_guide_iff w x y : through_guide w x y = true <-> Rabs y < w / 2.
Proof. unfold through_guide. apply Rltb_spec. Qed.
Lemma slab_iff gap L c x y : slab gap L c x y = true <-> gap / 2 < Rabs x - c < gap / 2 + L.
Proof. unfold slab. rewrite andb_true_iff, !Rltb_spec. reflexivity. Qed.
Lemma describes_map {T} (f : T -> region) (l : list T) (P : T -> R -> R -> Prop) :
  (forall t x y, f t x y = true <-> P t x y) -> describes (List.map f l) (fun x y => exists t, In t l /\ P t x y).
Proof.
  intros H x y. rewrite existsb_exists. split.
  - intros (r & HI & HR). apply in_map_iff in HI as (t & <- & HI). exists t. split; [assumption|]. apply H, HR.
  - intros (t & HI & HP). exists (f t). split; [apply in_map; assumption|]. apply H, HP.
Qed.
Lemma py_div_ok a b q : py_div a b = Ok q -> b <> 0 /\ q = a / b.
Proof. unfold py_div. destruct (Req_EM_T b 0); [discriminate|]. intro H. split; [assumption|congruence]. Qed.

(** unfolds a builder that returned *)
Ltac builder H :=
  repeat match type of H with
  | rbind ?m _ = Ok _ => let E := fresh "Q" in destruct m eqn:E; [cbn [rbind] in H|discriminate H]; cbv beta in H
  end; cbv zeta in H;
  repeat match goal with Q : py_div _ _ = Ok _ |- _ => apply py_div_ok in Q; destruct Q as [? ->] end.
Lemma npml_at_ok l i z : npml_at l i = Ok z -> nth_error l i = Some z.
Proof. unfold npml_at. destruct (nth_error l i); [congruence|discriminate]. Qed.

(* ------------------------------------------------------------------ *)
(** * C62 *)

(** The coordinates of at least two pixels are centred on 0, run from -n dl/2 to n dl/2 and are
    equally spaced, n/(n-1) dl apart; that of a single pixel is -dl/2. *)
Theorem C62_coordinates_partial :
  forall n dl, (2 <= n)%nat ->
  grid_coord n dl 0 = - (INR n * dl / 2) /\ grid_coord n dl (n - 1) = INR n * dl / 2 /\
  (forall i, (i < n)%nat -> grid_coord n dl (n - 1 - i) = - grid_coord n dl i) /\
  (forall i, grid_coord n dl (i + 1) - grid_coord n dl i = INR n / INR (n - 1) * dl) /\
  grid_coord 1 dl 0 = - dl / 2.
Proof.
  intros n dl H. assert (INR n >= 2) by (apply le_INR in H; simpl in H; lra).
  split; [rewrite grid_coord_eq by assumption; unfold coordinate; simpl (INR 0); field; lra|].
  split; [rewrite grid_coord_eq by assumption; unfold coordinate; rewrite minus_INR by lia; simpl (INR 1); field; lra|].
  split; [intros i Hi; apply grid_coord_mirror; assumption|].
  split; [intro i; rewrite !grid_coord_eq by assumption; unfold coordinate; rewrite plus_INR, minus_INR by lia; simpl (INR 1); field; lra|].
  unfold grid_coord, linspace. cbn [Nat.leb]. simpl (INR 1). lra.
Qed.
(** Neighbouring pixels are never dl apart. *)
Theorem C62_spacing_refuted :
  forall n dl i, dl <> 0 -> (i + 1 < n)%nat -> grid_coord n dl (i + 1) - grid_coord n dl i <> dl.
Proof.
  intros n dl i Hd Hi E. destruct (C62_coordinates_partial n dl ltac:(lia)) as (_ & _ & _ & S & _). rewrite S in E.
  assert (INR n >= 2) by (assert (H: (2 <= n)%nat) by lia; apply le_INR in H; simpl in H; lra).
  rewrite minus_INR in E by lia. simpl (INR 1) in E.
  assert (INR n / (INR n - 1) = 1). { apply (Rmult_eq_reg_r dl); [|assumption]. rewrite E. ring. }
  apply (Rmult_eq_compat_r (INR n - 1)) in H0. replace (INR n / (INR n - 1) * (INR n - 1)) with (INR n) in H0 by (field; lra). lra.
Qed.

(* ------------------------------------------------------------------ *)
(** * C61 *)

(** The order in which regions are listed, and repetitions, do not matter. *)
Theorem C61_order_irrelevant :
  forall l l' Nx Ny dl a b m m', (forall r, In r l <-> In r l') ->
  apply_regions l Nx Ny dl a b = Ok m -> apply_regions l' Nx Ny dl a b = Ok m' ->
  forall i j, (i < Nx)%nat -> (j < Ny)%nat -> nd_at m i j = nd_at m' i j.
Proof.
  intros l l' Nx Ny dl a b m m' HI H H' i j Hi Hj.
  apply apply_regions_spec in H as (_ & _ & H). apply apply_regions_spec in H' as (_ & _ & H'). rewrite H, H' by assumption.
  set (f := fun reg : region => reg (grid_coord Nx dl i) (grid_coord Ny dl j)).
  assert (E: existsb f l = existsb f l'); [|rewrite E; reflexivity].
  apply eq_true_iff_eq. rewrite !existsb_exists. split; intros (r & Hr & Hf); exists r; (split; [apply HI; assumption|assumption]).
Qed.

Theorem C61_two_port :
  forall L H w l spc dl NPML eps_start eps design,
  two_port L H w l spc dl NPML eps_start = Ok (eps, design) ->
  exists p0 p1 nx ny, nth_error NPML 0 = Some p0 /\ nth_error NPML 1 = Some p1 /\ dl <> 0 /\
    truncated ((2 * l + L) / dl) nx /\ truncated ((H + 2 * spc) / dl) ny /\
    structure (2 * p0 + nx) (2 * p1 + ny) dl
      (fun _ y => Rabs y < w / 2)
      (fun x y => Rabs x < L / 2 /\ Rabs y < H / 2) eps_start 1 eps design.
Proof.
  intros * HB. unfold two_port in HB. builder HB.
  exists a, a1, (py_int ((2 * l + L) / dl)), (py_int ((H + 2 * spc) / dl)).
  split; [apply npml_at_ok; assumption|]. split; [apply npml_at_ok; assumption|]. split; [assumption|].
  split; [apply py_int_spec|]. split; [apply py_int_spec|].
  eapply build_structure; [| |exact HB].
  - eapply describes_iff; [apply describes_or; [intros; apply through_guide_iff|apply describes_nil]|]. intros x y; cbv beta; clear; intuition.
  - eapply describes_iff; [apply describes_or; [intros; apply box_region_iff|apply describes_nil]|].
    intros x y. cbv beta. rewrite ?(Rminus_0_r y). clear; intuition.
Qed.

(** Ny/2 - int(Ny/2) *)
Lemma half_parity N : (0 <= N)%Z -> IZR N / 2 - IZR (py_int (IZR N / 2)) = IZR (N mod 2) / 2.
Proof.
  intro H. assert (E: py_int (IZR N / 2) = (N / 2)%Z).
  { apply py_int_unique. assert (D := Z.div_mod N 2 ltac:(lia)). assert (B := Z.mod_pos_bound N 2 ltac:(lia)).
    apply IZR_le in H. split; [intros _|lra]. rewrite D at 2 3. rewrite plus_IZR, mult_IZR.
    destruct B as [B1 B2]. apply IZR_le in B1. assert (B3: (N mod 2 <= 1)%Z) by lia. apply IZR_le in B3. lra. }
  rewrite E. assert (D := Z.div_mod N 2 ltac:(lia)). rewrite D at 1. rewrite plus_IZR, mult_IZR. lra.
Qed.
Lemma py_int_half N : py_int (IZR (N mod 2) / 2) = 0%Z.
Proof.
  apply py_int_unique. assert (B := Z.mod_pos_bound N 2 ltac:(lia)). destruct B as [B1 B2]. apply IZR_le in B1.
  assert (B3: (N mod 2 <= 1)%Z) by lia. apply IZR_le in B3. split; intro; lra.
Qed.

Definition three_port_set (L H W yb yt : R) (x y : R) : Prop :=
  (Rabs x < L / 2 /\ Rabs y < H / 2) \/ (x < 0 /\ Rabs y < W / 2) \/
  (0 < x /\ Rabs (y - yb) < W / 2) \/ (0 < x /\ Rabs (y - yt) < W / 2).

(** The guides are int(w/dl) dl wide; the output guides are at -d/2 and d/2 rounded towards 0
    to pixels, when Ny is even, and at 1/2 - d/2 and 1/2 + d/2 pixels rounded, when it is odd. *)
Theorem C61_three_port :
  forall L H w d l spc dl NPML eps_start bg eps design,
  three_port L H w d l spc dl NPML eps_start bg = Ok (eps, design) ->
  exists p0 p1 nx ny n b t, nth_error NPML 0 = Some p0 /\ nth_error NPML 1 = Some p1 /\ dl <> 0 /\
    truncated ((2 * l + L) / dl) nx /\ truncated ((H + 2 * spc) / dl) ny /\ truncated (w / dl) n /\
    truncated (IZR (ny mod 2) / 2 - d / 2 / dl) b /\ truncated (IZR (ny mod 2) / 2 + d / 2 / dl) t /\
    structure (2 * p0 + nx) (2 * p1 + ny) dl
      (three_port_set L H (dl * IZR n) (dl * IZR b) (dl * IZR t))
      (fun x y => Rabs x < L / 2 /\ Rabs y < H / 2) eps_start bg eps design.
Proof.
  intros * HB. unfold three_port in HB. builder HB.
  set (nx := py_int ((2 * l + L) / dl)) in *. set (ny := py_int ((H + 2 * spc) / dl)) in *.
  assert (PN: (0 <= 2 * a1 + ny)%Z).
  { unfold build, grid_size in HB. destruct (Z.ltb_spec (2 * a + nx) 0); [discriminate|].
    destruct (Z.ltb_spec (2 * a1 + ny) 0); [discriminate|assumption]. }
  rewrite half_parity in HB by assumption.
  assert (EM: ((2 * a1 + ny) mod 2 = ny mod 2)%Z) by (rewrite Z.add_comm, Z.mul_comm, Z.mod_add by lia; reflexivity).
  rewrite EM, py_int_half, Rmult_0_r in HB.
  exists a, a1, nx, ny, (py_int (w / dl)), (py_int (IZR (ny mod 2) / 2 - d / 2 / dl)), (py_int (IZR (ny mod 2) / 2 + d / 2 / dl)).
  split; [apply npml_at_ok; assumption|]. split; [apply npml_at_ok; assumption|]. split; [assumption|].
  do 5 (split; [apply py_int_spec|]).
  eapply build_structure; [| |exact HB].
  - eapply describes_iff.
    { apply describes_or; [intros; apply box_region_iff|]. apply describes_or; [intros; apply left_guide_iff|].
      apply describes_or; [intros; apply right_guide_iff|]. apply describes_or; [intros; apply right_guide_iff|apply describes_nil]. }
    intros x y. unfold three_port_set. cbv beta. rewrite ?(Rminus_0_r y). clear; intuition.
  - eapply describes_iff; [apply describes_or; [intros; apply box_region_iff|apply describes_nil]|].
    intros x y. cbv beta. rewrite ?(Rminus_0_r y). clear; intuition.
Qed.

(** N guides of width int(w/dl) dl to the right, at d (i - (N-1)/2) for i = 0, ..., N-1 *)
Theorem C61_N_port :
  forall N L H w d l spc dl NPML eps_start bg eps design,
  N_port N L H w d l spc dl NPML eps_start bg = Ok (eps, design) ->
  exists p0 p1 nx ny n, nth_error NPML 0 = Some p0 /\ nth_error NPML 1 = Some p1 /\ dl <> 0 /\
    truncated ((2 * l + L) / dl) nx /\ truncated ((H + 2 * spc) / dl) ny /\ truncated (w / dl) n /\
    structure (2 * p0 + nx) (2 * p1 + ny) dl
      (fun x y => (Rabs x < L / 2 /\ Rabs y < H / 2) \/ (x < 0 /\ Rabs (y - 1 / 100) < dl * IZR n / 2) \/
         exists i, (0 <= i < N)%Z /\ 0 < x /\ Rabs (y - d * (IZR i - (IZR N - 1) / 2)) < dl * IZR n / 2)
      (fun x y => Rabs x < L / 2 /\ Rabs y < H / 2) eps_start bg eps design.
Proof.
  intros * HB. unfold N_port in HB. builder HB.
  exists a, a1, (py_int ((2 * l + L) / dl)), (py_int ((H + 2 * spc) / dl)), (py_int (w / dl)).
  split; [apply npml_at_ok; assumption|]. split; [apply npml_at_ok; assumption|]. split; [assumption|].
  split; [apply py_int_spec|]. split; [apply py_int_spec|]. split; [apply py_int_spec|].
  eapply build_structure; [| |exact HB].
  - eapply describes_iff.
    { apply describes_or; [intros; apply box_region_iff|]. apply describes_or; [intros; apply left_guide_iff|].
      apply describes_map. intros; apply right_guide_iff. }
    intros x y. cbv beta. rewrite ?(Rminus_0_r y).
    assert (E: (exists t, In t (List.seq 0 (Z.to_nat N)) /\ 0 < x /\ Rabs (y - out_guide_y N d t) < dl * IZR (py_int (w / dl)) / 2) <->
      (exists i, (0 <= i < N)%Z /\ 0 < x /\ Rabs (y - d * (IZR i - (IZR N - 1) / 2)) < dl * IZR (py_int (w / dl)) / 2)).
    { split.
      - intros (t & Ht & Hx & Hy). apply in_seq in Ht. exists (Z.of_nat t). split; [lia|]. split; [assumption|].
        unfold out_guide_y in Hy. rewrite INR_IZR_INZ in Hy. rewrite Rmult_comm. exact Hy.
      - intros (i & Hi & Hx & Hy). exists (Z.to_nat i). split; [apply in_seq; lia|]. split; [assumption|].
        unfold out_guide_y. rewrite INR_IZR_INZ, Z2Nat.id, Rmult_comm by lia. exact Hy. }
    cbv beta. destruct E as [E1 E2]. split; (intros [G|[G|G]]; [left; exact G|right; left; exact G|right; right; auto]).
  - eapply describes_iff; [apply describes_or; [intros; apply box_region_iff|apply describes_nil]|].
    intros x y. cbv beta. rewrite ?(Rminus_0_r y). clear; intuition.
Qed.

Theorem C61_ortho_port :
  forall L L2 H H2 w l dl NPML eps_start eps design,
  ortho_port L L2 H H2 w l dl NPML eps_start = Ok (eps, design) ->
  exists p0 p1 nx ny, nth_error NPML 0 = Some p0 /\ nth_error NPML 1 = Some p1 /\ dl <> 0 /\
    truncated ((2 * l + L) / dl) nx /\ truncated ((2 * l + H) / dl) ny /\
    structure (2 * p0 + nx) (2 * p1 + ny) dl
      (fun x y => Rabs y < w / 2 \/ (- w / 2 < x < w / 2 + dl / 2 /\ 0 < y))
      (fun x y => (Rabs x < L / 2 /\ Rabs y < w / 2) \/ (Rabs x < L2 / 2 /\ Rabs y < H2 / 2) \/
                  (- w / 2 < x < w / 2 + dl / 2 /\ - H2 / 2 < y < H / 2)) eps_start 1 eps design.
Proof.
  intros * HB. unfold ortho_port in HB. builder HB.
  exists a, a1, (py_int ((2 * l + L) / dl)), (py_int ((2 * l + H) / dl)).
  split; [apply npml_at_ok; assumption|]. split; [apply npml_at_ok; assumption|]. split; [assumption|].
  do 2 (split; [apply py_int_spec|]).
  eapply build_structure; [| |exact HB].
  - intros x y. cbn [existsb]. unfold through_guide. rewrite !orb_true_iff, !andb_true_iff, !Rltb_spec. intuition discriminate.
  - intros x y. cbn [existsb]. unfold down_guide. rewrite !orb_true_iff, !andb_true_iff, !Rltb_spec. intuition discriminate.
Qed.

Theorem C61_accelerator :
  forall beta gap lambda0 L spc dl NPML eps_start eps design,
  accelerator beta gap lambda0 L spc dl NPML eps_start = Ok (eps, design) ->
  exists p0 nx ny, nth_error NPML 0 = Some p0 /\ dl <> 0 /\
    truncated ((4 * spc + 2 * L + gap) / dl) nx /\ truncated (beta * lambda0 / dl) ny /\
    structure (2 * p0 + nx) ny dl
      (fun x _ => gap / 2 < Rabs x < gap / 2 + L)
      (fun x _ => gap / 2 < Rabs x < gap / 2 + L) eps_start 1 eps design.
Proof.
  intros * HB. unfold accelerator in HB. builder HB.
  exists a, (py_int ((4 * spc + 2 * L + gap) / dl)), (py_int (beta * lambda0 / dl)).
  split; [apply npml_at_ok; assumption|]. split; [assumption|]. do 2 (split; [apply py_int_spec|]).
  assert (D: describes [slab gap L 0] (fun x _ => gap / 2 < Rabs x < gap / 2 + L)).
  { eapply describes_iff; [apply describes_or; [intros; apply slab_iff|apply describes_nil]|]. intros x y. cbv beta. rewrite Rminus_0_r; clear; intuition. }
  eapply build_structure; [exact D|exact D|exact HB].
Qed.

(** The four builders with two PML thicknesses return exactly when the domain is not empty. *)
Theorem C61_builders_return :
  forall L L2 H H2 w d l spc dl p0 p1 rest N eps_start bg, dl <> 0 ->
  forall nx ny ny2, truncated ((2 * l + L) / dl) nx -> truncated ((H + 2 * spc) / dl) ny -> truncated ((2 * l + H) / dl) ny2 ->
  (((0 < 2 * p0 + nx)%Z /\ (0 < 2 * p1 + ny)%Z <-> exists r, three_port L H w d l spc dl (p0 :: p1 :: rest) eps_start bg = Ok r) /\
   ((0 < 2 * p0 + nx)%Z /\ (0 < 2 * p1 + ny)%Z <-> exists r, two_port L H w l spc dl (p0 :: p1 :: rest) eps_start = Ok r) /\
   ((0 < 2 * p0 + nx)%Z /\ (0 < 2 * p1 + ny)%Z <-> exists r, N_port N L H w d l spc dl (p0 :: p1 :: rest) eps_start bg = Ok r) /\
   ((0 < 2 * p0 + nx)%Z /\ (0 < 2 * p1 + ny2)%Z <-> exists r, ortho_port L L2 H H2 w l dl (p0 :: p1 :: rest) eps_start = Ok r)).
Proof.
  intros * Hd nx ny ny2 T1 T2 T3. apply py_int_unique in T1, T2, T3.
  assert (G: forall Nx Ny dl regs des a b, regs <> [] ->
    ((0 < Nx)%Z /\ (0 < Ny)%Z <-> exists r, build Nx Ny dl regs des a b = Ok r)).
  { intros Nx Ny dl' regs des a b HR. split; [intros [A B]; apply build_ok; assumption|]. intros [r HB].
    destruct (Z_lt_le_dec 0 Nx); [destruct (Z_lt_le_dec 0 Ny); [auto|]|]; rewrite build_raises in HB by (auto; lia); discriminate. }
  unfold three_port, two_port, N_port, ortho_port, npml_at, py_div. cbn [nth_error rbind].
  destruct (Req_EM_T dl 0); [contradiction|]. cbn [rbind]. cbv zeta. rewrite T1, T2, T3.
  split; [apply G; discriminate|]. split; [apply G; discriminate|]. split; apply G; discriminate.
Qed.
Theorem C61_accelerator_returns :
  forall beta gap lambda0 L spc dl p0 rest eps_start nx ny, dl <> 0 ->
  truncated ((4 * spc + 2 * L + gap) / dl) nx -> truncated (beta * lambda0 / dl) ny ->
  ((0 < 2 * p0 + nx)%Z /\ (0 < ny)%Z <-> exists r, accelerator beta gap lambda0 L spc dl (p0 :: rest) eps_start = Ok r).
Proof.
  intros * Hd T1 T2. apply py_int_unique in T1, T2. unfold accelerator, npml_at, py_div. cbn [nth_error rbind].
  destruct (Req_EM_T dl 0); [contradiction|]. cbn [rbind]. rewrite T1, T2.
  split; [intros [A B]; apply build_ok; assumption|]. intros [r HB].
  destruct (Z_lt_le_dec 0 (2 * p0 + nx)); [destruct (Z_lt_le_dec 0 ny); [auto|]|]; rewrite build_raises in HB by (auto; discriminate); discriminate.
Qed.

Lemma trunc_int z : truncated (IZR z) z.
Proof. split; intro; lra. Qed.
Lemma trunc_eq x z : x = IZR z -> truncated x z.
Proof. intros ->. apply trunc_int. Qed.
(** the structure used below: 4 x 9 pixels of size 1 with two output guides 4 apart *)
Lemma three_port_example : exists eps design, three_port 2 0 1 4 1 (9 / 2) 1 [0; 0]%Z 12 1 = Ok (eps, design).
Proof.
  destruct (C61_builders_return 2 0 0 0 1 4 1 (9 / 2) 1 0 0 [] 0 12 1 ltac:(lra) 4 9 2
    ltac:(apply trunc_eq; lra) ltac:(apply trunc_eq; lra) ltac:(apply trunc_eq; lra)) as ([H _] & _).
  destruct H as [[eps design] H]; [lia|]. exists eps, design. exact H.
Qed.
Example C61_met :
  (exists r, three_port 2 0 1 4 1 (9 / 2) 1 [0; 0]%Z 12 1 = Ok r) /\ (exists r, two_port 2 0 1 1 (9 / 2) 1 [0; 0]%Z 12 = Ok r) /\
  (exists r, N_port 3 2 0 1 4 1 (9 / 2) 1 [0; 0]%Z 12 1 = Ok r) /\ (exists r, ortho_port 2 1 0 1 1 1 1 [0; 0]%Z 12 = Ok r) /\
  (exists r, accelerator 1 1 2 1 1 1 [0]%Z 12 = Ok r).
Proof.
  destruct (C61_builders_return 2 1 0 1 1 4 1 (9 / 2) 1 0 0 [] 3 12 1 ltac:(lra) 4 9 2
    ltac:(apply trunc_eq; lra) ltac:(apply trunc_eq; lra) ltac:(apply trunc_eq; lra)) as (H1 & H2 & H3 & H4).
  split; [apply H1; lia|]. split; [apply H2; lia|]. split; [apply H3; lia|]. split; [apply H4; lia|].
  apply (C61_accelerator_returns 1 1 2 1 1 1 0 [] 12 7 2); [lra|apply trunc_eq; lra|apply trunc_eq; lra|lia].
Qed.

(* ------------------------------------------------------------------ *)
(** * C63 *)

Lemma filled_mirror_y P a b dl m : filled P a b dl m -> (forall x y, P x (- y) <-> P x y) -> mirror_y m.
Proof.
  intros HF HP i j Hi Hj. destruct (Nat.eq_dec (nd_ny m) 1) as [E|E].
  { replace (nd_ny m - 1 - j)%nat with j by lia. reflexivity. }
  destruct (HF i j Hi Hj) as [A1 A2]. destruct (HF i (nd_ny m - 1 - j)%nat Hi ltac:(lia)) as [B1 B2]. cbv zeta in *.
  rewrite grid_coord_mirror in B1, B2 by lia.
  destruct (Classical_Prop.classic (P (grid_coord (nd_nx m) dl i) (grid_coord (nd_ny m) dl j))) as [G|G].
  - rewrite A1, B1; [reflexivity|apply HP; assumption|assumption].
  - rewrite A2, B2; [reflexivity|rewrite HP; assumption|assumption].
Qed.
Lemma filled_mirror_x P a b dl m : filled P a b dl m -> (forall x y, P (- x) y <-> P x y) -> mirror_x m.
Proof.
  intros HF HP i j Hi Hj. destruct (Nat.eq_dec (nd_nx m) 1) as [E|E].
  { replace (nd_nx m - 1 - i)%nat with i by lia. reflexivity. }
  destruct (HF i j Hi Hj) as [A1 A2]. destruct (HF (nd_nx m - 1 - i)%nat j ltac:(lia) Hj) as [B1 B2]. cbv zeta in *.
  rewrite grid_coord_mirror in B1, B2 by lia.
  destruct (Classical_Prop.classic (P (grid_coord (nd_nx m) dl i) (grid_coord (nd_ny m) dl j))) as [G|G].
  - rewrite A1, B1; [reflexivity|apply HP; assumption|assumption].
  - rewrite A2, B2; [reflexivity|rewrite HP; assumption|assumption].
Qed.

(** two_port and its design region have both mirror symmetries. *)
Theorem C63_two_port :
  forall L H w l spc dl NPML eps_start eps design,
  two_port L H w l spc dl NPML eps_start = Ok (eps, design) ->
  mirror_y eps /\ mirror_x eps /\ mirror_y design /\ mirror_x design.
Proof.
  intros * HB. apply C61_two_port in HB as (p0 & p1 & nx & ny & _ & _ & _ & _ & _ & _ & _ & _ & _ & F1 & F2).
  split; [eapply filled_mirror_y; [exact F1|]; intros; cbv beta; rewrite Rabs_Ropp; reflexivity|].
  split; [eapply filled_mirror_x; [exact F1|]; intros; reflexivity|].
  split; [eapply filled_mirror_y; [exact F2|]; intros; cbv beta; rewrite Rabs_Ropp; reflexivity|].
  eapply filled_mirror_x; [exact F2|]. intros; cbv beta; rewrite Rabs_Ropp; reflexivity.
Qed.
Theorem C63_accelerator :
  forall beta gap lambda0 L spc dl NPML eps_start eps design,
  accelerator beta gap lambda0 L spc dl NPML eps_start = Ok (eps, design) ->
  mirror_y eps /\ mirror_x eps /\ mirror_y design /\ mirror_x design.
Proof.
  intros * HB. apply C61_accelerator in HB as (p0 & nx & ny & _ & _ & _ & _ & _ & _ & _ & _ & F1 & F2).
  split; [eapply filled_mirror_y; [exact F1|]; intros; reflexivity|].
  split; [eapply filled_mirror_x; [exact F1|]; intros; cbv beta; rewrite Rabs_Ropp; reflexivity|].
  split; [eapply filled_mirror_y; [exact F2|]; intros; reflexivity|].
  eapply filled_mirror_x; [exact F2|]. intros; cbv beta; rewrite Rabs_Ropp; reflexivity.
Qed.
Lemma Rabs_flip a b : Rabs (- a - b) = Rabs (a - - b).
Proof. rewrite <- Rabs_Ropp. f_equal. ring. Qed.
(** N_port: the design region is symmetric and so is the structure to the right of the
    middle; on the left only the input guide, which is offset by 1/100, breaks the symmetry. *)
Theorem C63_N_port :
  forall N L H w d l spc dl NPML eps_start bg eps design,
  N_port N L H w d l spc dl NPML eps_start bg = Ok (eps, design) ->
  mirror_y design /\
  forall i j, (i < nd_nx eps)%nat -> (j < nd_ny eps)%nat -> 0 <= grid_coord (nd_nx eps) dl i ->
    nd_at eps i j = nd_at eps i (nd_ny eps - 1 - j).
Proof.
  intros * HB. apply C61_N_port in HB as (p0 & p1 & nx & ny & n & _ & _ & _ & _ & _ & _ & _ & _ & _ & _ & F1 & F2).
  split; [eapply filled_mirror_y; [exact F2|]; intros; cbv beta; rewrite Rabs_Ropp; reflexivity|].
  intros i j Hi Hj Hx. destruct (Nat.eq_dec (nd_ny eps) 1) as [E|E].
  { replace (nd_ny eps - 1 - j)%nat with j by lia. reflexivity. }
  destruct (F1 i j Hi Hj) as [A1 A2]. destruct (F1 i (nd_ny eps - 1 - j)%nat Hi ltac:(lia)) as [B1 B2]. cbv zeta in *.
  rewrite grid_coord_mirror in B1, B2 by lia. set (x := grid_coord (nd_nx eps) dl i) in *. set (y := grid_coord (nd_ny eps) dl j) in *.
  assert (S: forall y, (Rabs x < L / 2 /\ Rabs y < H / 2 \/ x < 0 /\ Rabs (y - 1 / 100) < dl * IZR n / 2 \/
       (exists i : Z, (0 <= i < N)%Z /\ 0 < x /\ Rabs (y - d * (IZR i - (IZR N - 1) / 2)) < dl * IZR n / 2)) ->
      (Rabs x < L / 2 /\ Rabs (- y) < H / 2 \/ x < 0 /\ Rabs (- y - 1 / 100) < dl * IZR n / 2 \/
       (exists i : Z, (0 <= i < N)%Z /\ 0 < x /\ Rabs (- y - d * (IZR i - (IZR N - 1) / 2)) < dl * IZR n / 2))).
  { intros v [G|[[G _]|(k & K1 & K2 & K3)]]; [left; rewrite Rabs_Ropp; exact G|lra|].
    right; right. exists (N - 1 - k)%Z. split; [lia|]. split; [assumption|]. rewrite Rabs_flip. rewrite !minus_IZR.
    replace (v - - (d * (IZR N - 1 - IZR k - (IZR N - 1) / 2))) with (v - d * (IZR k - (IZR N - 1) / 2)) by field. exact K3. }
  match type of A1 with ?P -> _ => destruct (Classical_Prop.classic P) as [G|G] end.
  - rewrite A1 by exact G. rewrite B1; [reflexivity|apply S, G].
  - rewrite A2 by exact G. rewrite B2; [reflexivity|]. intro G'. apply G. apply S in G'. rewrite !Ropp_involutive in G'. exact G'.
Qed.

(** three_port: the design region is symmetric; the structure is when it has an even number of rows. *)
Definition C63_three_port_property : Prop :=
  forall L H w d l spc dl NPML eps_start bg eps design,
  three_port L H w d l spc dl NPML eps_start bg = Ok (eps, design) -> mirror_y eps /\ mirror_y design.
Lemma mod2_even n p : (Z.of_nat n = 2 * p + 0)%Z -> Nat.Even n.
Proof. intro H. exists (Z.to_nat p). lia. Qed.
Theorem C63_three_port_even_rows_partial :
  forall L H w d l spc dl NPML eps_start bg eps design,
  three_port L H w d l spc dl NPML eps_start bg = Ok (eps, design) ->
  mirror_y design /\ (Nat.Even (nd_ny eps) -> mirror_y eps).
Proof.
  intros * HB. apply C61_three_port in HB as (p0 & p1 & nx & ny & n & b & t & _ & _ & _ & _ & _ & _ & Tb & Tt & _ & Ny & _ & _ & F1 & F2).
  split; [eapply filled_mirror_y; [exact F2|]; intros; cbv beta; rewrite Rabs_Ropp; reflexivity|].
  intros [q Hq]. assert (E: (ny mod 2 = 0)%Z) by (apply Znumtheory.Zdivide_mod; exists (Z.of_nat q - p1)%Z; lia).
  rewrite E in Tb, Tt. apply py_int_unique in Tb, Tt.
  assert (Eb: b = (- t)%Z). { rewrite <- Tb, <- Tt, <- py_int_opp. f_equal. set (u := d / 2 / dl). simpl (IZR 0). lra. }
  eapply filled_mirror_y; [exact F1|]. intros x y. unfold three_port_set. rewrite Eb, opp_IZR, !Rabs_Ropp, !Rabs_flip, Ropp_mult_distr_r_reverse, Ropp_involutive.
  clear. intuition.
Qed.
(** With an odd number of rows and d at least one pixel the upper guide is one pixel further
    from the middle than the lower one. *)
Theorem C63_three_port_odd_rows :
  forall dl d p1 ny (b t : Z), (Z.odd ny = true) -> 0 < dl -> dl <= d ->
  truncated (IZR (ny mod 2) / 2 - d / 2 / dl) b -> truncated (IZR (ny mod 2) / 2 + d / 2 / dl) t ->
  (b = 1 - t)%Z /\ (1 <= t)%Z /\ Z.odd (2 * p1 + ny) = true.
Proof.
  intros dl d p1 ny b t Ho Hd Hdd Tb Tt. rewrite Zmod_odd, Ho in Tb, Tt.
  assert (P: 1 / 2 <= d / 2 / dl). { apply Rmult_le_reg_r with (2 * dl); [lra|]. replace (d / 2 / dl * (2 * dl)) with d by (field; lra). lra. }
  set (u := d / 2 / dl) in *. destruct Tt as [Tt _]. specialize (Tt ltac:(lra)).
  assert (1 <= t)%Z. { assert (0 < t)%Z; [|lia]. apply lt_IZR. lra. }
  split; [|split; [assumption|rewrite Z.odd_add, Z.odd_mul, Ho; reflexivity]].
  assert (IZR (1 - t) = 1 - IZR t) by apply minus_IZR. assert (1 <= IZR t) by (apply IZR_le; assumption).
  destruct Tb as [Tb1 Tb2]. destruct (Rle_dec 0 (1 / 2 - u)) as [Q|Q].
  - specialize (Tb1 Q). assert (b < (1 - t) + 1)%Z by (apply lt_IZR; rewrite plus_IZR; lra).
    assert ((1 - t) < b + 1)%Z by (apply lt_IZR; rewrite plus_IZR; lra). lia.
  - specialize (Tb2 ltac:(lra)). assert (b < (1 - t) + 1)%Z by (apply lt_IZR; rewrite plus_IZR; lra).
    assert ((1 - t) < b + 1)%Z by (apply lt_IZR; rewrite plus_IZR; lra). lia.
Qed.
Theorem C63_three_port_refuted : ~ C63_three_port_property.
Proof.
  intro HP. destruct three_port_example as (eps & design & HB). assert (M := HP _ _ _ _ _ _ _ _ _ _ _ _ HB). destruct M as [M _].
  apply C61_three_port in HB as (p0 & p1 & nx & ny & n & b & t & E0 & E1 & _ & T1 & T2 & Tn & Tb & Tt & Nx & Ny & _ & _ & F1 & _).
  cbn in E0, E1. injection E0 as <-. injection E1 as <-. apply py_int_unique in T1, T2, Tn, Tb, Tt.
  assert (nx = 4)%Z by (rewrite <- T1; apply py_int_unique, trunc_eq; lra).
  assert (EN: ny = 9%Z) by (rewrite <- T2; apply py_int_unique, trunc_eq; lra).
  assert (n = 1)%Z by (rewrite <- Tn; apply py_int_unique, trunc_eq; lra). rewrite EN in Tb, Tt. cbn in Tb, Tt.
  assert (b = -1)%Z by (rewrite <- Tb; apply py_int_unique; split; intro; lra).
  assert (t = 2)%Z by (rewrite <- Tt; apply py_int_unique; split; intro; lra). clear T1 T2 Tn Tb Tt. subst.
  assert (X: nd_nx eps = 4%nat) by lia. assert (Y: nd_ny eps = 9%nat) by lia.
  assert (A := F1 3%nat 3%nat ltac:(lia) ltac:(lia)). assert (B := F1 3%nat 5%nat ltac:(lia) ltac:(lia)).
  assert (MM := M 3%nat 3%nat ltac:(lia) ltac:(lia)). cbv zeta in *. rewrite X, Y in A, B. rewrite Y in MM. cbn [Nat.sub] in MM.
  rewrite !grid_coord_eq in A, B by lia. unfold coordinate in A, B.
  replace ((INR 3 - (INR 4 - 1) / 2) * (INR 4 / (INR 4 - 1) * 1)) with 2 in A, B by (simpl; field).
  replace ((INR 3 - (INR 9 - 1) / 2) * (INR 9 / (INR 9 - 1) * 1)) with (- (9 / 8)) in A by (simpl; field).
  replace ((INR 5 - (INR 9 - 1) / 2) * (INR 9 / (INR 9 - 1) * 1)) with (9 / 8) in B by (simpl; field).
  destruct A as [A _]. destruct B as [_ B]. rewrite A in MM.
  - rewrite B in MM; [lra|]. unfold three_port_set. intros [[_ G]|[[G _]|[[_ G]|[_ G]]]].
    + rewrite Rabs_pos_eq in G by lra. lra.
    + lra.
    + rewrite Rabs_pos_eq in G by lra. lra.
    + rewrite Rabs_left in G by lra. lra.
  - unfold three_port_set. right; right; left. split; [lra|]. rewrite Rabs_left by lra. lra.
Qed.

Example C63_met : exists eps design, three_port 2 0 1 4 1 4 1 [0; 0]%Z 12 1 = Ok (eps, design) /\ Nat.Even (nd_ny eps).
Proof.
  destruct (C61_builders_return 2 0 0 0 1 4 1 4 1 0 0 [] 0 12 1 ltac:(lra) 4 8 2
    ltac:(apply trunc_eq; lra) ltac:(apply trunc_eq; lra) ltac:(apply trunc_eq; lra)) as ([H _] & _).
  destruct H as [[eps design] H]; [lia|]. exists eps, design. split; [exact H|].
  apply C61_three_port in H as (p0 & p1 & nx & ny & n & b & t & _ & E1 & _ & _ & T2 & _ & _ & _ & _ & Ny & _).
  cbn in E1. injection E1 as <-. apply py_int_unique in T2.
  assert (ny = 8)%Z by (rewrite <- T2; apply py_int_unique, trunc_eq; lra). exists 4%nat. lia.
Qed.

(* ------------------------------------------------------------------ *)
(** * C75 *)

Lemma coord_inside n dl m j : (2 <= n)%nat -> 0 < dl -> (0 < m < Z.of_nat n)%Z -> (j < n)%nat ->
  (Rabs (grid_coord n dl j) < dl * IZR m / 2 <-> (Z.abs (2 * Z.of_nat j + 1 - Z.of_nat n) < m)%Z).
Proof.
  intros Hn Hd Hm Hj. rewrite grid_coord_eq by assumption. unfold coordinate.
  assert (Pn: INR n >= 2) by (apply le_INR in Hn; simpl in Hn; lra).
  set (a := (2 * Z.of_nat j + 1 - Z.of_nat n)%Z).
  assert (E: (INR j - (INR n - 1) / 2) * (INR n / (INR n - 1) * dl) = IZR a * (INR n * dl / (2 * (INR n - 1)))).
  { unfold a. rewrite minus_IZR, plus_IZR, mult_IZR, <- !INR_IZR_INZ. field. lra. }
  rewrite E, Rabs_mult, <- abs_IZR, (Rabs_pos_eq (INR n * dl / (2 * (INR n - 1)))).
  2:{ apply Rmult_le_pos; [nra|]. left. apply Rinv_0_lt_compat. lra. }
  assert (Q: IZR (Z.abs a) * (INR n * dl / (2 * (INR n - 1))) < dl * IZR m / 2 <-> IZR (Z.abs a) * INR n < IZR m * (INR n - 1)).
  { assert (K: 0 < 2 * (INR n - 1) / dl) by (apply Rmult_lt_0_compat; [lra|apply Rinv_0_lt_compat; lra]).
    split; intro G.
    - apply (Rmult_lt_compat_r _ _ _ K) in G.
      replace (IZR (Z.abs a) * (INR n * dl / (2 * (INR n - 1))) * (2 * (INR n - 1) / dl)) with (IZR (Z.abs a) * INR n) in G by (field; lra).
      replace (dl * IZR m / 2 * (2 * (INR n - 1) / dl)) with (IZR m * (INR n - 1)) in G by (field; lra). exact G.
    - apply (Rmult_lt_reg_r _ _ _ K).
      replace (IZR (Z.abs a) * (INR n * dl / (2 * (INR n - 1))) * (2 * (INR n - 1) / dl)) with (IZR (Z.abs a) * INR n) by (field; lra).
      replace (dl * IZR m / 2 * (2 * (INR n - 1) / dl)) with (IZR m * (INR n - 1)) by (field; lra). exact G. }
  rewrite Q, INR_IZR_INZ, <- minus_IZR, <- !mult_IZR. split; intro G.
  - apply lt_IZR in G. nia.
  - apply IZR_lt. nia.
Qed.

(** The rows of the guide of nominal width n = int(w/dl) pixels: m rows in the middle, where m is
    n or, when n and the number of rows do not have the same parity, n - 1. *)
Definition guide_rows (n : Z) (ny : nat) : Z := if Z.even (n + Z.of_nat ny) then n else (n - 1)%Z.
Theorem C75_input_guide_rows_partial :
  forall L H w d l spc dl NPML eps_start bg eps design n,
  three_port L H w d l spc dl NPML eps_start bg = Ok (eps, design) ->
  0 < dl -> truncated (w / dl) n -> (0 < n < Z.of_nat (nd_ny eps))%Z ->
  let m := guide_rows n (nd_ny eps) in
  Z.even (Z.of_nat (nd_ny eps) - m) = true /\
  forall i j, (i < nd_nx eps)%nat -> (j < nd_ny eps)%nat -> grid_coord (nd_nx eps) dl i < 0 -> grid_coord (nd_nx eps) dl i <= - L / 2 ->
    let first := ((Z.of_nat (nd_ny eps) - m) / 2)%Z in
    ((first <= Z.of_nat j < first + m)%Z -> nd_at eps i j = eps_start) /\
    (~ (first <= Z.of_nat j < first + m)%Z -> nd_at eps i j = bg).
Proof.
  intros * HB Hd Tn Hn m. apply C61_three_port in HB as (p0 & p1 & nx & ny & n' & b & t & _ & _ & _ & _ & _ & Tn' & _ & _ & Nx & Ny & _ & _ & F1 & _).
  apply py_int_unique in Tn, Tn'. rewrite Tn in Tn'. subst n'. clear Tn.
  assert (EV: Z.even (Z.of_nat (nd_ny eps) - m) = true).
  { unfold m, guide_rows. destruct (Z.even (n + Z.of_nat (nd_ny eps))) eqn:E; rewrite Z.even_sub; rewrite Z.even_add in E.
    - destruct (Z.even n), (Z.even (Z.of_nat (nd_ny eps))); auto.
    - rewrite Z.even_sub. destruct (Z.even n), (Z.even (Z.of_nat (nd_ny eps))); auto. }
  split; [exact EV|]. intros i j Hi Hj Hx HL. cbv zeta. destruct (F1 i j Hi Hj) as [A1 A2]. cbv zeta in A1, A2.
  assert (I := coord_inside (nd_ny eps) dl n j ltac:(lia) Hd Hn Hj).
  set (x := grid_coord (nd_nx eps) dl i) in *. set (y := grid_coord (nd_ny eps) dl j) in *.
  assert (S: three_port_set L H (dl * IZR n) (dl * IZR b) (dl * IZR t) x y <-> Rabs y < dl * IZR n / 2).
  { unfold three_port_set. split; [|intro G; right; left; split; [lra|exact G]].
    intros [[G _]|[[_ G]|[[G _]|[G _]]]]; try lra. rewrite Rabs_left in G by lra. lra. }
  apply Z.even_spec in EV as [q Hq]. rewrite Hq, Z.mul_comm, Z.div_mul by lia.
  assert (R: (q <= Z.of_nat j < q + m)%Z <-> (Z.abs (2 * Z.of_nat j + 1 - Z.of_nat (nd_ny eps)) < n)%Z).
  { assert (Hm: (m = n \/ (m = n - 1 /\ Z.odd (n + Z.of_nat (nd_ny eps)) = true))%Z).
    { unfold m, guide_rows. destruct (Z.even (n + Z.of_nat (nd_ny eps))) eqn:E; [left; reflexivity|right; split; [reflexivity|]].
      rewrite <- Z.negb_even, E. reflexivity. }
    destruct Hm as [Hm|[Hm Ho]]; [|apply Z.odd_spec in Ho as [z Hz]]; lia. }
  split; intro G.
  - apply A1, S, I, R, G.
  - apply A2. intro G'. apply G, R, I, S, G'.
Qed.
(** The guide is not always int(w/dl) rows wide. *)
Definition rows_of_value (v : R) (eps : nd R) (i : nat) : nat :=
  List.length (List.filter (fun j => if Req_EM_T (nd_at eps i j) v then true else false) (List.seq 0 (nd_ny eps))).
Definition C75_property : Prop :=
  forall L H w d l spc dl NPML eps_start bg eps design n i,
  three_port L H w d l spc dl NPML eps_start bg = Ok (eps, design) -> eps_start <> bg ->
  0 < dl -> truncated (w / dl) n -> (0 < n < Z.of_nat (nd_ny eps))%Z ->
  (i < nd_nx eps)%nat -> grid_coord (nd_nx eps) dl i < 0 -> grid_coord (nd_nx eps) dl i <= - L / 2 ->
  Z.of_nat (rows_of_value eps_start eps i) = n.
Lemma rows_example w n : truncated w n -> exists eps design, three_port 2 0 w 4 1 (9 / 2) 1 [0; 0]%Z 12 1 = Ok (eps, design) /\
  nd_nx eps = 4%nat /\ nd_ny eps = 9%nat /\ truncated (w / 1) n /\ grid_coord (nd_nx eps) 1 0 < 0 /\ grid_coord (nd_nx eps) 1 0 <= - 2 / 2.
Proof.
  intro Tw. destruct (C61_builders_return 2 0 0 0 w 4 1 (9 / 2) 1 0 0 [] 0 12 1 ltac:(lra) 4 9 2
    ltac:(apply trunc_eq; lra) ltac:(apply trunc_eq; lra) ltac:(apply trunc_eq; lra)) as ([H _] & _).
  destruct H as [[eps design] H]; [lia|]. exists eps, design. split; [exact H|].
  apply C61_three_port in H as (p0 & p1 & nx & ny & n' & b & t & E0 & E1 & _ & T1 & T2 & _ & _ & _ & Nx & Ny & _).
  cbn in E0, E1. injection E0 as <-. injection E1 as <-. apply py_int_unique in T1, T2.
  assert (nx = 4)%Z by (rewrite <- T1; apply py_int_unique, trunc_eq; lra).
  assert (ny = 9)%Z by (rewrite <- T2; apply py_int_unique, trunc_eq; lra).
  assert (X: nd_nx eps = 4%nat) by lia. split; [exact X|]. split; [lia|]. rewrite X, grid_coord_eq by lia. unfold coordinate.
  replace ((INR 0 - (INR 4 - 1) / 2) * (INR 4 / (INR 4 - 1) * 1)) with (-2) by (simpl; field).
  split; [replace (w / 1) with w by field; exact Tw|]. split; lra.
Qed.
Theorem C75_parity_refuted : ~ C75_property.
Proof.
  intro HP. destruct (rows_example 2 2) as (eps & design & HB & X & Y & T & G1 & G2); [apply trunc_eq; lra|].
  assert (K := HP _ _ _ _ _ _ _ _ _ _ _ _ 2%Z 0%nat HB ltac:(lra) ltac:(lra) T ltac:(lia) ltac:(lia) G1 G2).
  assert (V := C75_input_guide_rows_partial _ _ _ _ _ _ _ _ _ _ _ _ _ HB ltac:(lra) T ltac:(lia)). cbv zeta in V. destruct V as [_ V].
  assert (VV: forall j, (j < 9)%nat -> nd_at eps 0 j = if Nat.eqb j 4 then 12 else 1).
  { intros j Hj. specialize (V 0%nat j ltac:(lia) ltac:(lia) G1 G2). rewrite Y in V. cbn in V. destruct (Nat.eqb_spec j 4); [apply V; lia|apply V; lia]. }
  unfold rows_of_value in K. rewrite Y in K. cbn [List.seq List.filter] in K. rewrite !VV in K by lia. cbn [Nat.eqb] in K.
  destruct (Req_EM_T 1 12); [lra|]. destruct (Req_EM_T 12 12); [|lra]. cbn in K. lia.
Qed.
Example C75_met : exists eps design, three_port 2 0 3 4 1 (9 / 2) 1 [0; 0]%Z 12 1 = Ok (eps, design) /\
  truncated (3 / 1) 3 /\ (0 < 3 < Z.of_nat (nd_ny eps))%Z /\ (0 < nd_nx eps)%nat /\
  grid_coord (nd_nx eps) 1 0 < 0 /\ grid_coord (nd_nx eps) 1 0 <= - 2 / 2.
Proof.
  destruct (rows_example 3 3) as (eps & design & HB & X & Y & T & G1 & G2); [apply trunc_eq; lra|].
  exists eps, design. split; [exact HB|]. split; [exact T|]. split; [lia|]. split; [lia|]. split; assumption.
Qed.

(* ------------------------------------------------------------------ *)
(** * C76 *)

(** accelerator_multi raises ValueError for an even number of channels. *)
Theorem C76_even_number_raises :
  forall beta gap lambda0 L spc n dl NPML eps_start, Z.even n = true ->
  accelerator_multi beta gap lambda0 L spc n dl NPML eps_start = Raise ValueError.
Proof.
  intros * E. unfold accelerator_multi. rewrite Zmod_even, E. reflexivity.
Qed.
Definition multi_slabs (gap L : R) (n : Z) (x _ : R) : Prop :=
  exists i, (0 <= i <= n / 2)%Z /\ gap / 2 < Rabs x - IZR i * (gap + L) < gap / 2 + L.
(** for an odd number the material fills n/2 + 1 slabs of thickness L on both sides, and the
    design region is the material *)
Theorem C76_slabs :
  forall beta gap lambda0 L spc n dl NPML eps_start eps design,
  accelerator_multi beta gap lambda0 L spc n dl NPML eps_start = Ok (eps, design) ->
  Z.odd n = true /\
  exists p0 nx ny, nth_error NPML 0 = Some p0 /\ dl <> 0 /\
    truncated ((4 * spc + 2 * L * IZR n + gap * IZR n) / dl) nx /\ truncated (beta * lambda0 / dl) ny /\
    structure (2 * p0 + nx) ny dl (multi_slabs gap L n) (multi_slabs gap L n) eps_start 1 eps design.
Proof.
  intros * HB. unfold accelerator_multi in HB. destruct (Z.eqb_spec (n mod 2) 1) as [E|]; [|discriminate].
  split. { rewrite Zmod_odd in E. destruct (Z.odd n); [reflexivity|discriminate]. }
  builder HB. exists a, (py_int ((4 * spc + 2 * L * IZR n + gap * IZR n) / dl)), (py_int (beta * lambda0 / dl)).
  split; [apply npml_at_ok; assumption|]. split; [assumption|]. split; [apply py_int_spec|]. split; [apply py_int_spec|].
  assert (D: describes (List.map (fun i => slab gap L (INR i * (gap + L))) (List.seq 0 (Z.to_nat (n / 2 + 1)))) (multi_slabs gap L n)).
  { eapply describes_iff; [apply describes_map; intros; apply slab_iff|]. intros x y. unfold multi_slabs. split.
    - intros (t & Ht & G). apply in_seq in Ht. exists (Z.of_nat t). split; [lia|]. rewrite <- INR_IZR_INZ. exact G.
    - intros (i & Hi & G). exists (Z.to_nat i). split; [apply in_seq; lia|]. rewrite INR_IZR_INZ, Z2Nat.id by lia. exact G. }
  eapply build_structure; [exact D|exact D|exact HB].
Qed.
(** so both are mirror symmetric *)
Theorem C76_mirror :
  forall beta gap lambda0 L spc n dl NPML eps_start eps design,
  accelerator_multi beta gap lambda0 L spc n dl NPML eps_start = Ok (eps, design) ->
  mirror_y eps /\ mirror_x eps /\ mirror_y design /\ mirror_x design.
Proof.
  intros * HB. apply C76_slabs in HB as (_ & p0 & nx & ny & _ & _ & _ & _ & _ & _ & _ & _ & F1 & F2).
  split; [eapply filled_mirror_y; [exact F1|]; intros; reflexivity|].
  split; [eapply filled_mirror_x; [exact F1|]; intros; unfold multi_slabs; rewrite Rabs_Ropp; reflexivity|].
  split; [eapply filled_mirror_y; [exact F2|]; intros; reflexivity|].
  eapply filled_mirror_x; [exact F2|]. intros; unfold multi_slabs; rewrite Rabs_Ropp; reflexivity.
Qed.
(** The slabs leave exactly n channels of width gap, centred at multiples of gap + L: a point is
    in a slab iff it is nearer to the middle than the outermost slab's edge and in no channel.
    The slabs fit in the domain, which leaves at least 2 spc on each side. *)
Definition in_channel (gap L : R) (k : Z) (x : R) : Prop := Rabs (x - IZR k * (gap + L)) <= gap / 2.
Lemma abs_between x c : 0 <= c -> Rabs (Rabs x - c) <= Rabs (x - c) /\ Rabs (Rabs x - c) <= Rabs (x + c).
Proof. intro H. unfold Rabs. repeat destruct (Rcase_abs _); lra. Qed.
Theorem C76_channels :
  forall gap L n spc, 0 <= gap -> 0 <= L -> Z.odd n = true -> (0 < n)%Z ->
  (forall x y, multi_slabs gap L n x y <->
     Rabs x < IZR (n / 2) * (gap + L) + gap / 2 + L /\
     forall k, (Z.abs k <= n / 2)%Z -> ~ in_channel gap L k x) /\
  (IZR (n / 2) * (gap + L) + gap / 2 + L) + 2 * spc <= (4 * spc + 2 * L * IZR n + gap * IZR n) / 2.
Proof.
  intros gap L n spc Hg HL Ho Hn. split.
  - intros x y. set (p := gap + L) in *. assert (Hp: 0 <= p) by (unfold p; lra). split.
    + intros (i & Hi & G1 & G2). fold p in G1, G2. split.
      * assert (IZR i <= IZR (n / 2)) by (apply IZR_le; lia). assert (IZR i * p <= IZR (n / 2) * p) by (apply Rmult_le_compat_r; assumption). lra.
      * intros k Hk C. unfold in_channel in C. fold p in C.
        assert (C2: Rabs (Rabs x - IZR (Z.abs k) * p) <= gap / 2).
        { rewrite abs_IZR. assert (0 <= Rabs (IZR k) * p) by (apply Rmult_le_pos; [apply Rabs_pos|assumption]).
          destruct (abs_between x (Rabs (IZR k) * p) H) as [B1 B2]. unfold Rabs in B1, B2, C |- *. destruct (Rcase_abs (IZR k)).
          - replace (x + - IZR k * p) with (x - IZR k * p) in B2 by ring. lra.
          - lra. }
        apply Rabs_le_between in C2. destruct (Z_le_gt_dec (Z.abs k) i) as [Q|Q].
        -- assert (IZR (Z.abs k) * p <= IZR i * p) by (apply Rmult_le_compat_r; [assumption|apply IZR_le; assumption]). lra.
        -- assert (IZR (i + 1) * p <= IZR (Z.abs k) * p) by (apply Rmult_le_compat_r; [assumption|apply IZR_le; lia]).
           rewrite plus_IZR in H. unfold p in *. lra.
    + intros [G1 G2].
      assert (K: forall m, (Z.of_nat m <= n / 2)%Z -> Rabs x < INR m * p + gap / 2 + L -> exists i, (0 <= i <= Z.of_nat m)%Z /\ gap / 2 < Rabs x - IZR i * p < gap / 2 + L).
      { assert (GN: forall m, (Z.of_nat m <= n / 2)%Z -> gap / 2 < Rabs (Rabs x - INR m * p)).
        { intros m Hm. apply Rnot_le_lt. intro C. destruct (Rle_dec 0 x) as [Px|Px].
          - apply (G2 (Z.of_nat m)); [lia|]. unfold in_channel. fold p. rewrite <- INR_IZR_INZ. rewrite (Rabs_pos_eq x) in C by assumption. exact C.
          - apply (G2 (- Z.of_nat m)%Z); [lia|]. unfold in_channel. fold p. rewrite opp_IZR, <- INR_IZR_INZ.
            rewrite (Rabs_left x) in C by lra. rewrite <- Rabs_Ropp. replace (- (x - - INR m * p)) with (- x - INR m * p) by ring. exact C. }
        induction m as [|m IH]; intros Hm Hx.
        - exists 0%Z. split; [lia|]. specialize (GN 0%nat Hm). simpl (INR 0) in *. rewrite Rmult_0_l, Rminus_0_r, Rabs_Rabsolu in GN. simpl (IZR 0). lra.
        - specialize (GN (S m) Hm). rewrite S_INR in *. destruct (Rle_dec 0 (Rabs x - (INR m + 1) * p)) as [Q|Q].
          + rewrite Rabs_pos_eq in GN by assumption. exists (Z.of_nat (S m)). split; [lia|]. rewrite <- INR_IZR_INZ, S_INR. lra.
          + rewrite Rabs_left in GN by lra. destruct IH as (i & Hi & Gi); [lia|unfold p in *; lra|]. exists i. split; [lia|exact Gi]. }
      destruct (K (Z.to_nat (n / 2))) as (i & Hi & Gi).
      { rewrite Z2Nat.id; [lia|apply Z.div_pos; lia]. }
      { rewrite INR_IZR_INZ, Z2Nat.id by (apply Z.div_pos; lia). exact G1. }
      rewrite Z2Nat.id in Hi by (apply Z.div_pos; lia). exists i. split; [exact Hi|exact Gi].
  - apply Z.odd_spec in Ho as [q Hq]. assert (E: (n / 2 = q)%Z) by (subst n; rewrite Z.add_comm, Z.mul_comm, Z.div_add by lia; reflexivity).
    rewrite E, Hq, plus_IZR, mult_IZR. assert (0 <= IZR q) by (apply IZR_le; lia). assert (0 <= IZR q * L) by (apply Rmult_le_pos; assumption). lra.
Qed.
Example C76_met : exists r, accelerator_multi 1 1 2 1 1 3 1 [0]%Z 12 = Ok r.
Proof.
  unfold accelerator_multi, npml_at, py_div. cbn [Z.modulo Z.div_eucl nth_error rbind]. cbn. destruct (Req_EM_T 1 0); [lra|]. cbn [rbind].
  replace (py_int ((4 * 1 + 2 * 1 * 3 + 1 * 3) / 1)) with 13%Z by (symmetry; apply py_int_unique, trunc_eq; lra).
  replace (py_int (1 * 2 / 1)) with 2%Z by (symmetry; apply py_int_unique, trunc_eq; lra).
  apply build_ok; lia.
Qed.
