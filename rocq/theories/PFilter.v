(** Lemmas about filter.py. *)
From Coq Require Import Reals Lra Lia List ZArith Arith Bool String.
From Coquelicot Require Import Coquelicot.
From Verif Require Import Base Linear MCore MSim MFilter Spec PCore.
Import ListNotations.

(* ------------------------------------------------------------------ *)
(** ** list sums *)
Lemma lsum_app {T} (f : T -> R) l1 l2 : lsum f (l1 ++ l2) = (lsum f l1 + lsum f l2)%R.
Proof. induction l1 as [|x t IH]; simpl; [ring|]. rewrite IH; ring. Qed.
Lemma lsum_ext {T} (f g : T -> R) l : (forall x, List.In x l -> f x = g x) -> lsum f l = lsum g l.
Proof.
  induction l as [|x t IH]; intro H; simpl; [reflexivity|]. rewrite H by (left; reflexivity).
  rewrite IH; [reflexivity|]. intros; apply H; right; assumption.
Qed.
Lemma lsum_0 {T} (f : T -> R) l : (forall x, List.In x l -> f x = 0%R) -> lsum f l = 0%R.
Proof.
  intro H. rewrite (lsum_ext f (fun _ => 0%R)) by assumption. clear H. induction l; simpl; [reflexivity|]. rewrite IHl; ring.
Qed.
Lemma lsum_map {T U} (f : U -> R) (g : T -> U) l : lsum f (List.map g l) = lsum (fun x => f (g x)) l.
Proof. induction l; simpl; [reflexivity|]. rewrite IHl; reflexivity. Qed.
Lemma lsum_flat_map {T U} (f : U -> R) (g : T -> list U) l :
  lsum f (List.flat_map g l) = lsum (fun x => lsum f (g x)) l.
Proof. induction l; simpl; [reflexivity|]. rewrite lsum_app, IHl; reflexivity. Qed.
Lemma lsum_ge0 {T} (f : T -> R) l : (forall x, List.In x l -> 0 <= f x)%R -> (0 <= lsum f l)%R.
Proof.
  induction l as [|x t IH]; intro H; simpl; [lra|].
  assert (0 <= f x)%R by (apply H; left; reflexivity).
  assert (0 <= lsum f t)%R by (apply IH; intros; apply H; right; assumption). lra.
Qed.
Lemma lsum_in_le {T} (f : T -> R) l x : (forall y, List.In y l -> 0 <= f y)%R -> List.In x l -> (f x <= lsum f l)%R.
Proof.
  induction l as [|y t IH]; intros H Hx; simpl; [destruct Hx|].
  assert (0 <= f y)%R by (apply H; left; reflexivity).
  assert (Ht: forall z, List.In z t -> (0 <= f z)%R) by (intros; apply H; right; assumption).
  assert (0 <= lsum f t)%R by (apply lsum_ge0; assumption).
  destruct Hx as [->|Hx]; [lra|]. specialize (IH Ht Hx). lra.
Qed.
Lemma rsum_lsum {T} n (f : nat -> T -> R) l : rsum n (fun k => lsum (f k) l) = lsum (fun x => rsum n (fun k => f k x)) l.
Proof.
  induction l as [|x t IH]; simpl; [apply rsum_0; reflexivity|]. rewrite rsum_plus, IH; reflexivity.
Qed.
Lemma in_zrange a b x : List.In x (zrange a b) <-> (a <= x < b)%Z.
Proof.
  unfold zrange. rewrite in_map_iff. split.
  - intros (k & <- & Hk). apply in_seq in Hk. lia.
  - intro H. exists (Z.to_nat (x - a)). split; [lia|]. apply in_seq. lia.
Qed.
Lemma lsum_seq_single f s n x : (s <= x < s + n)%nat -> (forall k, k <> x -> f k = 0%R) -> lsum f (List.seq s n) = f x.
Proof.
  intros Hx H. revert s Hx. induction n as [|n IH]; intros s Hx; [lia|]. simpl.
  destruct (Nat.eq_dec s x) as [->|Hs].
  - rewrite lsum_0; [ring|]. intros k Hk. apply H. apply in_seq in Hk. lia.
  - rewrite H by assumption. rewrite IH by lia. ring.
Qed.
Lemma lsum_zrange_single f a b x : (forall k, (a <= k < b)%Z -> k <> x -> f k = 0%R) ->
  lsum f (zrange a b) = if (Z.leb a x && Z.ltb x b)%bool then f x else 0%R.
Proof.
  intro H. destruct (Z.leb a x && Z.ltb x b)%bool eqn:E.
  - apply andb_true_iff in E as [E1 E2]. apply Z.leb_le in E1. apply Z.ltb_lt in E2.
    rewrite (lsum_ext f (fun k => if Z.eqb k x then f x else 0%R)).
    + unfold zrange. rewrite lsum_map.
      rewrite (lsum_seq_single _ 0 (Z.to_nat (b - a)) (Z.to_nat (x - a))); [|lia|].
      * replace (a + Z.of_nat (Z.to_nat (x - a)))%Z with x by lia. rewrite Z.eqb_refl; reflexivity.
      * intros k Hk. destruct (Z.eqb_spec (a + Z.of_nat k) x); [lia|reflexivity].
    + intros k Hk. apply in_zrange in Hk. destruct (Z.eqb_spec k x) as [->|]; [reflexivity|]. apply H; assumption.
  - apply lsum_0. intros k Hk. apply in_zrange in Hk. apply H; [assumption|]. intros ->.
    destruct (Z.leb_spec a x); destruct (Z.ltb_spec x b); simpl in E; try discriminate; lia.
Qed.

(* ------------------------------------------------------------------ *)
(** ** wrap, dist *)
Lemma wrap_in i N : (0 <= i < N)%Z -> wrap i N = i.
Proof. intro H. unfold wrap. destruct (Z.leb_spec N i); destruct (Z.ltb_spec i 0); lia. Qed.
Lemma wrap_N N : (0 <= N)%Z -> wrap N N = N.
Proof. intro H. unfold wrap. destruct (Z.leb_spec N N); destruct (Z.ltb_spec N 0); lia. Qed.
Lemma dist_sym a b : dist a b = dist b a.
Proof. unfold dist. f_equal. f_equal. ring. Qed.
Lemma dist_shift i j a b : dist (i, j) ((i + a)%Z, (j + b)%Z) = sqrt (IZR (a * a + b * b)).
Proof. unfold dist; cbn [fst snd]. f_equal. f_equal. ring. Qed.
Lemma sqrt_ge_abs a b Rr : (0 <= Rr)%Z -> (Rr <= Z.abs a \/ Rr <= Z.abs b)%Z -> (IZR Rr <= sqrt (IZR (a * a + b * b)))%R.
Proof.
  intros HR H. rewrite <- (sqrt_Rsqr (IZR Rr)) by (apply IZR_le; assumption). apply sqrt_le_1.
  - apply Rle_0_sqr.
  - apply IZR_le. nia.
  - unfold Rsqr. rewrite <- mult_IZR. apply IZR_le. nia.
Qed.

(* ------------------------------------------------------------------ *)
(** ** entries of the raw matrix *)

(** the weight before normalisation *)
Definition cone (Rr : Z) (a b : Z) : R := Rmax 0 (IZR Rr - sqrt (IZR (a * a + b * b))).
Definition cone_total (Rr : Z) : R :=
  lsum (fun a => lsum (fun b => cone Rr a b) (zrange (- Rr) (Rr + 1))) (zrange (- Rr) (Rr + 1)).
Lemma cone_ge0 Rr a b : (0 <= cone Rr a b)%R. Proof. apply Rmax_l. Qed.
Lemma cone_far Rr a b : (0 <= Rr)%Z -> (Rr <= Z.abs a \/ Rr <= Z.abs b)%Z -> cone Rr a b = 0%R.
Proof. intros HR H. unfold cone. apply Rmax_left. assert (HS := sqrt_ge_abs a b Rr HR H). lra. Qed.
Lemma cone_total_pos Rr : (0 < Rr)%Z -> (0 < cone_total Rr)%R.
Proof.
  intro H. unfold cone_total.
  apply Rlt_le_trans with (lsum (fun b => cone Rr 0 b) (zrange (- Rr) (Rr + 1))).
  - apply Rlt_le_trans with (cone Rr 0 0).
    + unfold cone. rewrite Z.mul_0_l, Z.add_0_r. rewrite sqrt_0, Rmax_right; [apply IZR_lt in H; lra|apply IZR_lt in H; lra].
    + apply (lsum_in_le (fun b => cone Rr 0 b)); [intros; apply cone_ge0|]. apply in_zrange; lia.
  - apply (lsum_in_le (fun a => lsum (fun b => cone Rr a b) (zrange (- Rr) (Rr + 1)))).
    + intros; apply lsum_ge0; intros; apply cone_ge0.
    + apply in_zrange; lia.
Qed.

(** filter_cols when i2 stays inside: any functional of the appended entries *)
Lemma filter_cols_in Rr Nx Ny i1 j1 jds i2 (F : Z * R -> R) : (0 <= i2 < Nx)%Z ->
  lsum F (filter_cols Rr Nx Ny i1 j1 jds i2)
  = lsum (fun jd => let v := (IZR Rr - dist (i1, j1) (i2, (j1 + jd)%Z))%R in
                    if Rlt_dec 0 v then F (sub2ind Ny i2 (wrap (j1 + jd) Ny), v) else 0%R) jds.
Proof.
  intro H. induction jds as [|jd t IH]; [reflexivity|]. cbn [filter_cols].
  rewrite (wrap_in i2) by assumption. rewrite lsum_app, IH. cbn [lsum fold_right]. f_equal.
  cbv zeta. destruct (Rlt_dec 0 _); simpl; ring.
Qed.
Lemma filter_row_in Rr Nx Ny i1 j1 (F : Z * R -> R) :
  (0 <= i1 - Rr)%Z -> (i1 + Rr < Nx)%Z ->
  lsum F (filter_row Rr Nx Ny i1 j1)
  = lsum (fun a => lsum (fun b =>
      let v := (IZR Rr - sqrt (IZR (a * a + b * b)))%R in
      if Rlt_dec 0 v then F (sub2ind Ny (i1 + a) (wrap (j1 + b) Ny), v) else 0%R) (zrange (- Rr) (Rr + 1)))
      (zrange (- Rr) (Rr + 1)).
Proof.
  intros H1 H2. unfold filter_row. rewrite lsum_flat_map. apply lsum_ext. intros a Ha. apply in_zrange in Ha.
  rewrite filter_cols_in by lia. apply lsum_ext. intros b Hb. rewrite dist_shift. reflexivity.
Qed.
Lemma filter_cols_pos Rr Nx Ny i1 j1 jds : forall i2 c v, List.In (c, v) (filter_cols Rr Nx Ny i1 j1 jds i2) -> (0 < v)%R.
Proof.
  induction jds as [|jd t IH]; intros i2 c v H; [destruct H|]. cbn [filter_cols] in H. apply in_app_or in H as [H|H].
  - destruct (Rlt_dec 0 _) as [L|L]; [|destruct H]. destruct H as [H|[]]. injection H as _ <-. exact L.
  - eapply IH; eassumption.
Qed.
Lemma filter_row_pos Rr Nx Ny i1 j1 c v : List.In (c, v) (filter_row Rr Nx Ny i1 j1) -> (0 < v)%R.
Proof. unfold filter_row. rewrite in_flat_map. intros (x & _ & H). eapply filter_cols_pos; eassumption. Qed.
Lemma in_triplets Rr Nx Ny npx npy r c v :
  List.In (r, (c, v)) (filter_triplets Rr Nx Ny npx npy) <->
  exists i j, List.In i (filter_range Rr Nx npx) /\ List.In j (filter_range Rr Ny npy) /\
    r = sub2ind Ny i j /\ List.In (c, v) (filter_row Rr Nx Ny i j).
Proof.
  unfold filter_triplets. rewrite in_flat_map. split.
  - intros (i & Hi & H). apply in_flat_map in H as (j & Hj & H). apply in_map_iff in H as ((c', v') & E & H).
    injection E as <- <- <-. eauto 8.
  - intros (i & j & Hi & Hj & -> & H). exists i; split; [assumption|]. apply in_flat_map. exists j; split; [assumption|].
    apply in_map_iff. exists (c, v); auto.
Qed.
Lemma csr_ok l N W : csr_matrix l N = Ok W ->
  (forall r c v, List.In (r, (c, v)) l -> (0 <= r < N)%Z /\ (0 <= c < N)%Z) /\
  forall r c, W r c = lsum (fun t => let '(r', (c', v)) := t in
                        if (Z.eqb r' (Z.of_nat r) && Z.eqb c' (Z.of_nat c))%bool then v else 0%R) l.
Proof.
  unfold csr_matrix. destruct (forallb _ l) eqn:E; [|discriminate]. intro H; injection H as <-. split; [|reflexivity].
  intros r c v Hin. rewrite forallb_forall in E. specialize (E _ Hin). cbn in E.
  rewrite !andb_true_iff, !Z.leb_le, !Z.ltb_lt in E. lia.
Qed.
Lemma filter_range_z Rr N np : (0 <= Rr)%Z -> (0 <= np)%Z -> exists a b, filter_range Rr N np = zrange a b /\ (0 <= a)%Z /\ (b <= N)%Z.
Proof.
  intros H1 H2. unfold filter_range. destruct (Z.eqb_spec np 0).
  - exists 0%Z, N. repeat split; lia.
  - eexists _, _. split; [reflexivity|]. lia.
Qed.
Lemma in_filter_range Rr N np x : (0 <= Rr)%Z -> (0 <= np)%Z -> List.In x (filter_range Rr N np) -> (0 <= x < N)%Z.
Proof. intros H1 H2 H. destruct (filter_range_z Rr N np H1 H2) as (a & b & E & Ha & Hb). rewrite E in H. apply in_zrange in H. lia. Qed.
Lemma lsum_range_single f Rr N np x : (0 <= Rr)%Z -> (0 <= np)%Z -> (forall k, k <> x -> f k = 0%R) ->
  lsum f (filter_range Rr N np) = if in_dec Z.eq_dec x (filter_range Rr N np) then f x else 0%R.
Proof.
  intros H1 H2 H. destruct (filter_range_z Rr N np H1 H2) as (a & b & -> & _ & _).
  rewrite (lsum_zrange_single f a b x) by (intros; apply H; assumption).
  destruct (in_dec Z.eq_dec x (zrange a b)) as [Hin|Hn]; rewrite in_zrange in *;
    destruct (Z.leb_spec a x); destruct (Z.ltb_spec x b); simpl; try reflexivity; lia.
Qed.
Lemma sub2ind_inj Ny i j i' j' : (0 <= j < Ny)%Z -> (0 <= j' < Ny)%Z -> sub2ind Ny i j = sub2ind Ny i' j' -> i = i' /\ j = j'.
Proof.
  intros H1 H2 E. unfold sub2ind in E. assert (i = i').
  { apply (f_equal (fun z => (z / Ny)%Z)) in E. rewrite !Z.div_add_l, !Z.div_small in E by lia. lia. }
  subst. lia.
Qed.
(** the row of pixel (i,j), 0<=j<Ny: functionals of its entries *)
Lemma triplets_row Rr Nx Ny npx npy i j (F : Z * R -> R) : (0 <= Rr)%Z -> (0 <= npx)%Z -> (0 <= npy)%Z -> (0 <= j < Ny)%Z -> 
  lsum (fun t => let '(r', cv) := t in if Z.eqb r' (sub2ind Ny i j) then F cv else 0%R) (filter_triplets Rr Nx Ny npx npy)
  = if in_dec Z.eq_dec i (filter_range Rr Nx npx) then
      if in_dec Z.eq_dec j (filter_range Rr Ny npy) then lsum F (filter_row Rr Nx Ny i j) else 0%R
    else 0%R.
Proof.
  intros HR Hx Hy Hj. unfold filter_triplets. rewrite lsum_flat_map.
  rewrite (lsum_ext _ (fun i' => lsum (fun j' => if (Z.eqb i' i && Z.eqb j' j)%bool then lsum F (filter_row Rr Nx Ny i j) else 0%R)
     (filter_range Rr Ny npy))).
  2:{ intros i' Hi'. rewrite lsum_flat_map. apply lsum_ext. intros j' Hj'. rewrite lsum_map.
      apply in_filter_range in Hj'; try assumption.
      destruct (Z.eqb_spec (sub2ind Ny i' j') (sub2ind Ny i j)) as [E|E].
      - apply sub2ind_inj in E as [-> ->]; try assumption. rewrite !Z.eqb_refl. reflexivity.
      - rewrite lsum_0 by reflexivity. destruct (Z.eqb_spec i' i) as [->|]; [|reflexivity].
        destruct (Z.eqb_spec j' j) as [->|]; [congruence|reflexivity]. }
  rewrite (lsum_range_single _ Rr Nx npx i) by (first [assumption|intros k Hk; apply lsum_0; intros;
    destruct (Z.eqb_spec k i); [contradiction|reflexivity]]).
  destruct (in_dec Z.eq_dec i _); [|reflexivity]. rewrite Z.eqb_refl.
  rewrite (lsum_range_single _ Rr Ny npy j) by (first [assumption|intros k Hk;
    destruct (Z.eqb_spec k j); [contradiction|reflexivity]]).
  destruct (in_dec Z.eq_dec j _); [|reflexivity]. rewrite Z.eqb_refl. reflexivity.
Qed.

(** ** the raw matrix of get_W *)
Section Raw.
Context (Nx Ny px py Rr : nat) (W : rmat).
Local Notation T := (filter_triplets (Z.of_nat Rr) (Z.of_nat Nx) (Z.of_nat Ny) (Z.of_nat px) (Z.of_nat py)).
Hypothesis HW : csr_matrix T (Z.of_nat (Nx * Ny)) = Ok W.
Definition rowed (i j : nat) : Prop :=
  List.In (Z.of_nat i) (filter_range (Z.of_nat Rr) (Z.of_nat Nx) (Z.of_nat px)) /\
  List.In (Z.of_nat j) (filter_range (Z.of_nat Rr) (Z.of_nat Ny) (Z.of_nat py)).

Lemma pix_sub i j : Z.of_nat (pix Ny i j) = sub2ind (Z.of_nat Ny) (Z.of_nat i) (Z.of_nat j).
Proof. unfold pix, sub2ind. lia. Qed.
Lemma W_ge0 r c : (0 <= W r c)%R.
Proof.
  destruct (csr_ok _ _ _ HW) as [_ E]. rewrite E. apply lsum_ge0. intros (r', (c', v)) Hin.
  destruct (_ && _)%bool; [|lra]. apply in_triplets in Hin as (i & j & _ & _ & _ & Hin). apply filter_row_pos in Hin. lra.
Qed.
(** functionals of row (i,j) *)
Lemma W_row i j c : (j < Ny)%nat -> rowed i j ->
  W (pix Ny i j) c = lsum (fun t => if Z.eqb (fst t) (Z.of_nat c) then snd t else 0%R)
     (filter_row (Z.of_nat Rr) (Z.of_nat Nx) (Z.of_nat Ny) (Z.of_nat i) (Z.of_nat j)).
Proof.
  intros Hj [H1 H2]. destruct (csr_ok _ _ _ HW) as [_ E]. rewrite E. rewrite pix_sub.
  transitivity (lsum (fun t => let '(r', cv) := t in if Z.eqb r' (sub2ind (Z.of_nat Ny) (Z.of_nat i) (Z.of_nat j))
      then (if Z.eqb (fst cv) (Z.of_nat c) then snd cv else 0%R) else 0%R) T).
  - apply lsum_ext. intros (r', (c', v)) _. cbn [fst snd]. destruct (Z.eqb r' _); destruct (Z.eqb c' _); reflexivity.
  - rewrite triplets_row by lia. destruct (in_dec Z.eq_dec _ _); [|contradiction].
    destruct (in_dec Z.eq_dec _ _); [reflexivity|contradiction].
Qed.
Lemma W_norow i j c : (j < Ny)%nat -> ~ rowed i j -> W (pix Ny i j) c = 0%R.
Proof.
  intros Hj Hn. destruct (csr_ok _ _ _ HW) as [_ E]. rewrite E. rewrite pix_sub.
  transitivity (lsum (fun t => let '(r', cv) := t in if Z.eqb r' (sub2ind (Z.of_nat Ny) (Z.of_nat i) (Z.of_nat j))
      then (if Z.eqb (fst cv) (Z.of_nat c) then snd cv else 0%R) else 0%R) T).
  - apply lsum_ext. intros (r', (c', v)) _. cbn [fst snd]. destruct (Z.eqb r' _); destruct (Z.eqb c' _); reflexivity.
  - rewrite triplets_row by lia. unfold rowed in Hn. destruct (in_dec Z.eq_dec _ _); [|reflexivity].
    destruct (in_dec Z.eq_dec _ _); [exfalso; apply Hn; auto|reflexivity].
Qed.
Lemma rowed_row_range i j c v : rowed i j ->
  List.In (c, v) (filter_row (Z.of_nat Rr) (Z.of_nat Nx) (Z.of_nat Ny) (Z.of_nat i) (Z.of_nat j)) ->
  (0 <= c < Z.of_nat (Nx * Ny))%Z.
Proof.
  intros [H1 H2] Hin. destruct (csr_ok _ _ _ HW) as [HB _].
  apply (HB (sub2ind (Z.of_nat Ny) (Z.of_nat i) (Z.of_nat j)) c v). apply in_triplets. eauto 8.
Qed.
Lemma W_rowsum i j : (j < Ny)%nat -> rowed i j ->
  rsum (Nx * Ny) (fun c => W (pix Ny i j) c)
  = lsum snd (filter_row (Z.of_nat Rr) (Z.of_nat Nx) (Z.of_nat Ny) (Z.of_nat i) (Z.of_nat j)).
Proof.
  intros Hj Hr. rewrite (rsum_ext _ _ (fun c => lsum (fun t => if Z.eqb (fst t) (Z.of_nat c) then snd t else 0%R)
     (filter_row (Z.of_nat Rr) (Z.of_nat Nx) (Z.of_nat Ny) (Z.of_nat i) (Z.of_nat j)))) by (intros; apply W_row; assumption).
  rewrite rsum_lsum. apply lsum_ext. intros (c, v) Hin. cbn [fst snd].
  assert (Hc := rowed_row_range i j c v Hr Hin).
  rewrite (rsum_single (Nx * Ny) (Z.to_nat c)); [|lia|].
  - rewrite Z2Nat.id by lia. rewrite Z.eqb_refl. reflexivity.
  - intros k Hk Hne. destruct (Z.eqb_spec c (Z.of_nat k)); [lia|reflexivity].
Qed.
(** row whose i-neighbourhood is inside the grid: total weight *)
Lemma W_rowsum_cone i j : (j < Ny)%nat -> rowed i j -> (Rr <= i)%nat -> (i + Rr < Nx)%nat ->
  rsum (Nx * Ny) (fun c => W (pix Ny i j) c) = cone_total (Z.of_nat Rr).
Proof.
  intros Hj Hr H1 H2. rewrite W_rowsum by assumption. rewrite filter_row_in by lia. unfold cone_total.
  apply lsum_ext; intros a _. apply lsum_ext; intros b _. cbv zeta. unfold cone. cbn [snd].
  destruct (Rlt_dec 0 _) as [L|L]; [rewrite Rmax_right; lra|rewrite Rmax_left; lra].
Qed.
(** row whose whole neighbourhood is inside the grid: entries *)
Lemma W_entry i j i2 j2 : (Rr <= i)%nat -> (i + Rr < Nx)%nat -> (Rr <= j)%nat -> (j + Rr < Ny)%nat -> rowed i j ->
  (j2 < Ny)%nat ->
  W (pix Ny i j) (pix Ny i2 j2) = cone (Z.of_nat Rr) (Z.of_nat i2 - Z.of_nat i) (Z.of_nat j2 - Z.of_nat j).
Proof.
  intros H1 H2 H3 H4 Hr Hj2. rewrite W_row by (assumption || lia). rewrite filter_row_in by lia.
  set (a0 := (Z.of_nat i2 - Z.of_nat i)%Z). set (b0 := (Z.of_nat j2 - Z.of_nat j)%Z).
  rewrite (lsum_ext _ (fun a => lsum (fun b => if (Z.eqb a a0 && Z.eqb b b0)%bool then cone (Z.of_nat Rr) a0 b0 else 0%R)
      (zrange (- Z.of_nat Rr) (Z.of_nat Rr + 1)))).
  2:{ intros a Ha. apply lsum_ext. intros b Hb. apply in_zrange in Ha. apply in_zrange in Hb.
      rewrite wrap_in by lia. cbv zeta. cbn [fst snd]. rewrite pix_sub.
      destruct (Z.eqb_spec (sub2ind (Z.of_nat Ny) (Z.of_nat i + a) (Z.of_nat j + b)) (sub2ind (Z.of_nat Ny) (Z.of_nat i2) (Z.of_nat j2))) as [E|E].
      - apply sub2ind_inj in E as [Ea Eb]; try lia. replace a with a0 by lia. replace b with b0 by lia.
        rewrite !Z.eqb_refl; cbn [andb]. unfold cone.
        destruct (Rlt_dec 0 _) as [L|L]; [rewrite Rmax_right; lra|rewrite Rmax_left; lra].
      - destruct (Z.eqb_spec a a0) as [->|]; [destruct (Z.eqb_spec b b0) as [->|]|]; cbn [andb];
          try (destruct (Rlt_dec 0 _); reflexivity).
        exfalso. apply E. unfold a0, b0. f_equal; lia. }
  rewrite (lsum_zrange_single _ _ _ a0) by (intros k _ Hk; apply lsum_0; intros; destruct (Z.eqb_spec k a0); [contradiction|reflexivity]).
  rewrite Z.eqb_refl; cbn [andb].
  rewrite (lsum_zrange_single _ _ _ b0) by (intros k _ Hk; destruct (Z.eqb_spec k b0); [contradiction|reflexivity]).
  rewrite Z.eqb_refl; cbn [andb].
  destruct (Z.leb_spec (- Z.of_nat Rr) a0); destruct (Z.ltb_spec a0 (Z.of_nat Rr + 1)); cbn [andb];
    try (symmetry; apply cone_far; lia).
  destruct (Z.leb_spec (- Z.of_nat Rr) b0); destruct (Z.ltb_spec b0 (Z.of_nat Rr + 1)); cbn [andb]; try reflexivity;
    symmetry; apply cone_far; lia.
Qed.
End Raw.
