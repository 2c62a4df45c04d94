(** C105: the pixel maps of the structures in floating point. *)
From Coq Require Import Reals Lra Lia List ZArith Arith Bool Psatz.
From Flocq Require Import Core.
From Verif Require Import Base MCore MSim MStruct MFloat MFloatGrid PropsStruct PropsFloat.
From Verif Require PMode.
Import ListNotations.
Local Open Scope R_scope.

(** ** Specification *)
(** dl is the pixel size delta and x is k pixels long, up to a few units in the last place: decimal
    literals, and lengths computed from them by a few operations, are *)
Definition pixels_long (delta x : R) (k : Z) : Prop := b64 x /\ Rabs (x - IZR k * delta) <= / 2 ^ 50 * Rabs (IZR k * delta).
(** pixel i of n has its centre at [place n i] units of delta/(2 (n - 1)) from the middle, because
    get_grid spreads n pixels over n delta with both ends included *)
Definition place (n i : nat) : Z := (Z.of_nat n * (2 * Z.of_nat i - (Z.of_nat n - 1)))%Z.
(** the centre of pixel i of n is nearer than k/2 pixels to the line c/2 pixels from the middle *)
Definition in_band (n : nat) (c k : Z) (i : nat) : Prop := (Z.abs (place n i - c * (Z.of_nat n - 1)) < k * (Z.of_nat n - 1))%Z.
(** no edge of that band lies on the border or on the middle of the grid *)
Definition off_edges (n : nat) (c k : Z) : Prop :=
  forall s : Z, List.In s [- Z.of_nat n; 0; Z.of_nat n]%Z -> (c + k <> s /\ c - k <> s)%Z.

(** ** Rounding *)
Notation u := (/ 2 ^ 53).
Lemma u_pos : 0 < u <= / 1024. Proof. rewrite (pow_IZR 2 53). cbn -[IZR]. lra. Qed.
Lemma u_53 : u * 9007199254740992 = 1. Proof. rewrite (pow_IZR 2 53). cbn -[IZR]. lra. Qed.
Lemma u_50 : / 2 ^ 50 = 8 * u. Proof. rewrite (pow_IZR 2 53), (pow_IZR 2 50). cbn -[IZR]. lra. Qed.
Lemma fl_rel x : normal x -> exists e, Rabs e <= u /\ fl x = x * (1 + e).
Proof.
  intros H. destruct (Req_dec x 0) as [->|N].
  - exists 0. rewrite Rabs_R0. split; [apply Rlt_le, u_pos|]. rewrite (fl_id 0) by (apply (b64_IZR 0); reflexivity). ring.
  - exists ((fl x - x) / x). split; [|field; exact N]. unfold Rdiv. rewrite Rabs_mult, Rabs_inv. apply fl_error in H.
    apply Rmult_le_reg_r with (Rabs x); [apply Rabs_pos_lt, N|]. rewrite Rmult_assoc, Rinv_l by (apply Rabs_no_R0, N). lra.
Qed.
Lemma fl_plus_rel x y : b64 x -> b64 y -> exists e, Rabs e <= u /\ fl (x + y) = (x + y) * (1 + e).
Proof.
  intros Hx Hy. destruct (Req_dec (x + y) 0) as [E|N].
  - exists 0. rewrite Rabs_R0, E. split; [apply Rlt_le, u_pos|]. rewrite (fl_id 0) by (apply (b64_IZR 0); reflexivity). ring.
  - exists ((fl (x + y) - (x + y)) / (x + y)). split; [|field; exact N]. unfold Rdiv. rewrite Rabs_mult, Rabs_inv. assert (H := fl_plus_error x y Hx Hy).
    apply Rmult_le_reg_r with (Rabs (x + y)); [apply Rabs_pos_lt, N|]. rewrite Rmult_assoc, Rinv_l by (apply Rabs_no_R0, N). lra.
Qed.
Lemma fl_opp x : fl (- x) = - fl x.
Proof. unfold fl. apply round_NE_opp. Qed.
Lemma tiny : powerRZ 2 (-1022) <= powerRZ 2 (-900) / 16777216 /\ 0 < powerRZ 2 (-900).
Proof.
  rewrite !powerRZ_bpow. split; [|apply bpow_gt_0]. replace 16777216 with (bpow radix2 24) by (cbn; lra). apply Rle_trans with (bpow radix2 (-924)); [apply bpow_le; lia|].
  unfold Rdiv. rewrite <- bpow_opp, <- bpow_plus. apply Req_le. reflexivity.
Qed.
Lemma normal_ge delta x : powerRZ 2 (-900) <= delta -> delta / 16777216 <= x -> normal x.
Proof. intros H1 H2. right. destruct tiny as [T1 T2]. rewrite Rabs_right by lra. lra. Qed.
Lemma b64_half_nat n : (Z.of_nat n < 2 ^ 53)%Z -> b64 (INR n / 2).
Proof. intro H. exists (Z.of_nat n), (-1)%Z. change (powerRZ 2 (-1)) with (/ (2 * 1)). rewrite INR_IZR_INZ. split; [lra|]. split; lia. Qed.

(** products of relative errors *)
Lemma mul1 a b ea eb : 0 <= ea <= / 64 -> 0 <= eb <= / 64 -> Rabs a <= ea -> Rabs b <= eb -> exists c, (1 + a) * (1 + b) = 1 + c /\ Rabs c <= ea + eb + / 64 * eb.
Proof.
  intros Ha Hb A B. exists (a + b + a * b). split; [ring|]. eapply Rle_trans; [apply Rabs_triang|]. rewrite Rabs_mult.
  assert (Rabs (a + b) <= Rabs a + Rabs b) by apply Rabs_triang. assert (Rabs a * Rabs b <= / 64 * eb). { apply Rmult_le_compat; try apply Rabs_pos; lra. } lra.
Qed.

Section Coord.
Variables (n : nat) (delta dl : R).
Hypothesis Hn : (2 <= n)%nat.
Hypothesis Hn2 : (Z.of_nat n <= 2 ^ 22)%Z.
Hypothesis Hd : powerRZ 2 (-900) <= delta.
Hypothesis Hdl : pixels_long delta dl 1.
Notation g := (delta / (2 * (INR n - 1))).
Notation S := (fl (fl (INR n / 2) * dl)).

Lemma delta_pos : 0 < delta. Proof. destruct tiny. lra. Qed.
Lemma n_real : 2 <= INR n <= 4194304.
Proof. split; [change 2 with (INR 2); apply le_INR, Hn|]. rewrite INR_IZR_INZ. apply IZR_le in Hn2. exact Hn2. Qed.
Lemma g_pos : 0 < g. Proof. assert (D := delta_pos). assert (N := n_real). apply Rdiv_lt_0_compat; lra. Qed.
Lemma nn_bound : INR n * (INR n - 1) * u <= / 512.
Proof.
  assert (N := n_real). assert (U := u_53). assert (INR n * (INR n - 1) <= 4194304 * 4194304) by (apply Rmult_le_compat; lra).
  assert (P := u_pos). assert (INR n * (INR n - 1) * u <= 4194304 * 4194304 * u) by (apply Rmult_le_compat_r; lra). lra.
Qed.
Lemma dl_rel : exists a, Rabs a <= 8 * u /\ dl = delta * (1 + a).
Proof.
  destruct Hdl as [_ H]. rewrite !Rmult_1_l in H. rewrite u_50 in H. assert (D := delta_pos). rewrite (Rabs_right delta) in H by lra.
  exists ((dl - delta) / delta). split; [|field; lra]. unfold Rdiv. rewrite Rabs_mult, Rabs_inv, (Rabs_right delta) by lra.
  apply Rmult_le_reg_r with delta; [exact D|]. rewrite Rmult_assoc, Rinv_l by lra. lra.
Qed.
Lemma S_rel : exists s, Rabs s <= 10 * u /\ S = INR n * delta / 2 * (1 + s).
Proof.
  rewrite (fl_id (INR n / 2)) by (apply b64_half_nat; lia). destruct dl_rel as (a & Ha & E). assert (D := delta_pos). assert (N := n_real). assert (U := u_pos).
  assert (A := Rabs_le_inv _ _ Ha).
  assert (B : delta / 2 <= INR n / 2 * dl). { rewrite E. assert (delta / 2 * 1 <= delta / 2 * (INR n * (1 + a))) by (apply Rmult_le_compat_l; [lra|]; assert (2 * (1 + a) <= INR n * (1 + a)) by (apply Rmult_le_compat_r; lra); lra). lra. }
  destruct (fl_rel (INR n / 2 * dl)) as (b & Hb & E2). { apply (normal_ge delta); [exact Hd|lra]. }
  destruct (mul1 a b (8 * u) u ltac:(lra) ltac:(lra) Ha Hb) as (s & Es & Hs). exists s. split; [lra|]. rewrite E2, E. replace (INR n / 2 * (delta * (1 + a)) * (1 + b)) with (INR n * delta / 2 * ((1 + a) * (1 + b))) by (field). rewrite Es. reflexivity.
Qed.
Lemma start_opp : fl (fl (- INR n / 2) * dl) = - S.
Proof.
  replace (- INR n / 2) with (- (INR n / 2)) by lra. rewrite fl_opp. replace (- fl (INR n / 2) * dl) with (- (fl (INR n / 2) * dl)) by ring. apply fl_opp.
Qed.
Lemma coord_error i : (i < n)%nat -> Rabs (grid_coord_f n dl i - IZR (place n i) * g) <= 16 * (INR n * delta * u).
Proof.
  intro Hi. assert (D := delta_pos). assert (N := n_real). assert (U := u_pos). destruct S_rel as (s & Hs & ES).
  assert (EP : IZR (place n i) * g = INR n * delta / 2 * (2 * INR i / (INR n - 1) - 1)).
  { unfold place. rewrite mult_IZR, minus_IZR, mult_IZR, minus_IZR, <- !INR_IZR_INZ. field. lra. }
  rewrite EP. clear EP. unfold grid_coord_f, linspace_f. destruct (Nat.leb_spec n 1); [lia|]. rewrite start_opp.
  assert (AP : 0 < INR n * delta / 2) by (apply Rmult_lt_0_compat; [apply Rmult_lt_0_compat|]; lra). set (A := INR n * delta / 2) in *.
  assert (EA : INR n * delta * u = 2 * (A * u)) by (unfold A; lra). rewrite EA.
  destruct (Nat.eqb_spec i (n - 1)) as [->|NI].
  - rewrite minus_INR by lia. simpl (INR 1). replace (2 * (INR n - 1) / (INR n - 1) - 1) with 1 by (field; lra). rewrite ES.
    replace (A * (1 + s) - A * 1) with (A * s) by ring. rewrite Rabs_mult, (Rabs_right A) by lra. assert (A * Rabs s <= A * (10 * u)) by (apply Rmult_le_compat_l; lra). assert (0 <= A * u) by (apply Rmult_le_pos; lra). lra.
  - replace (S - - S) with (2 * S) by ring. rewrite (fl_times2 S) by apply fl_b64. rewrite minus_INR by lia. simpl (INR 1).
    assert (As := Rabs_le_inv _ _ Hs).
    assert (SP : A / 2 <= S <= 2 * A). { rewrite ES. split; [assert (A * / 2 <= A * (1 + s)) by (apply Rmult_le_compat_l; lra)|assert (A * (1 + s) <= A * 2) by (apply Rmult_le_compat_l; lra)]; lra. }
    assert (G0 : delta / 16 <= 2 * S / (INR n - 1)).
    { apply Rmult_le_reg_r with (INR n - 1); [lra|]. unfold Rdiv at 2. rewrite Rmult_assoc, Rinv_l, Rmult_1_r by lra. apply Rle_trans with A; [|lra]. unfold A. assert (delta * (INR n - 1) <= delta * INR n) by (apply Rmult_le_compat_l; lra). assert (0 <= delta * INR n) by (apply Rmult_le_pos; lra). lra. }
    destruct (fl_rel (2 * S / (INR n - 1))) as (c & Hc & Ec). { apply (normal_ge delta); [exact Hd|lra]. }
    assert (Ac := Rabs_le_inv _ _ Hc).
    assert (G1 : i = 0%nat \/ delta / 32 <= INR i * fl (2 * S / (INR n - 1))).
    { destruct i as [|i]; [auto|right]. assert (1 <= INR (Datatypes.S i)) by (change 1 with (INR 1); apply le_INR; lia). rewrite Ec.
      assert (delta / 16 * / 2 <= 2 * S / (INR n - 1) * (1 + c)) by (apply Rmult_le_compat; lra).
      assert (1 * (2 * S / (INR n - 1) * (1 + c)) <= INR (Datatypes.S i) * (2 * S / (INR n - 1) * (1 + c))) by (apply Rmult_le_compat_r; lra). lra. }
    destruct (fl_rel (INR i * fl (2 * S / (INR n - 1)))) as (d & Hd' & Ed). { destruct G1 as [->|G1]; [left; simpl; ring|apply (normal_ge delta); [exact Hd|lra]]. }
    assert (Ad := Rabs_le_inv _ _ Hd').
    destruct (fl_plus_rel (fl (INR i * fl (2 * S / (INR n - 1)))) (- S)) as (f & Hf & Ef); [apply fl_b64|rewrite <- start_opp; apply fl_b64|].
    assert (Af := Rabs_le_inv _ _ Hf). rewrite Ef, Ed, Ec.
    destruct (mul1 c d u u ltac:(lra) ltac:(lra) Hc Hd') as (q & Eq & Hq). destruct (mul1 s f (10 * u) u ltac:(lra) ltac:(lra) Hs Hf) as (r & Er & Hr).
    set (T := 2 * INR i / (INR n - 1)).
    assert (BT : 0 <= T <= 2).
    { assert (0 <= INR i) by apply pos_INR. assert (QI : INR i <= INR (n - 1)) by (apply le_INR; lia); rewrite minus_INR in QI by lia; simpl (INR 1) in QI. unfold T. split; [apply Rmult_le_pos; [lra|left; apply Rinv_0_lt_compat; lra]|].
      apply Rmult_le_reg_r with (INR n - 1); [lra|]. unfold Rdiv. rewrite Rmult_assoc, Rinv_l by lra. lra. }
    replace ((INR i * (2 * S / (INR n - 1) * (1 + c)) * (1 + d) + - S) * (1 + f)) with (S * (T * ((1 + c) * (1 + d)) - 1) * (1 + f)) by (unfold T; field; lra).
    rewrite Eq, ES. replace (A * (1 + s) * (T * (1 + q) - 1) * (1 + f) - A * (T - 1)) with (A * (((1 + s) * (1 + f)) * (T * (1 + q) - 1) - (T - 1))) by ring. rewrite Er.
    replace ((1 + r) * (T * (1 + q) - 1) - (T - 1)) with (r * (T - 1) + T * q * (1 + r)) by ring.
    rewrite Rabs_mult, (Rabs_right A) by lra.
    assert (X1 : Rabs (r * (T - 1)) <= 12 * u). { rewrite Rabs_mult. assert (Rabs (T - 1) <= 1) by (apply Rabs_le; lra). assert (Rabs r * Rabs (T - 1) <= 12 * u * 1) by (apply Rmult_le_compat; try apply Rabs_pos; lra). lra. }
    assert (X2 : Rabs (T * q * (1 + r)) <= 8 * u).
    { rewrite !Rabs_mult, (Rabs_right T) by lra. assert (Ar := Rabs_le_inv _ _ Hr). rewrite (Rabs_right (1 + r)) by lra.
      assert (T * Rabs q <= 2 * (3 * u)) by (apply Rmult_le_compat; try apply Rabs_pos; lra). assert (T * Rabs q * (1 + r) <= 2 * (3 * u) * (1 + / 16)) by (apply Rmult_le_compat; [apply Rmult_le_pos; [lra|apply Rabs_pos]|lra|lra|lra]). lra. }
    assert (X := Rabs_triang (r * (T - 1)) (T * q * (1 + r))).
    apply Rle_trans with (A * (20 * u)); [apply Rmult_le_compat_l; lra|]. assert (0 <= A * u) by (apply Rmult_le_pos; lra). lra.
Qed.
End Coord.

(** ** Comparisons *)
Definition near (g a : R) (E : Z) : Prop := Rabs (a - IZR E * g) <= g / 16.
Lemma compare g a b E K : 0 < g -> Rabs (a - IZR E * g) <= g / 4 -> Rabs (b - IZR K * g) <= g / 4 -> E <> K -> (a < b <-> (E < K)%Z).
Proof.
  intros Hg Ha Hb N. apply Rabs_le_inv in Ha, Hb. split; intro H.
  - destruct (Z.lt_trichotomy E K) as [L|[->|L]]; [exact L|contradiction|exfalso]. assert (L1 : (K + 1 <= E)%Z) by lia. apply IZR_le in L1. rewrite plus_IZR in L1.
    assert ((IZR K + 1) * g <= IZR E * g) by (apply Rmult_le_compat_r; lra). lra.
  - assert (L1 : (E + 1 <= K)%Z) by lia. apply IZR_le in L1. rewrite plus_IZR in L1. assert ((IZR E + 1) * g <= IZR K * g) by (apply Rmult_le_compat_r; lra). lra.
Qed.
Lemma abs_close g a E t : 0 < g -> Rabs (a - IZR E * g) <= t -> Rabs (Rabs a - IZR (Z.abs E) * g) <= t.
Proof.
  intros Hg H. rewrite abs_IZR. replace (Rabs (IZR E) * g) with (Rabs (IZR E * g)) by (rewrite Rabs_mult, (Rabs_right g); lra).
  eapply Rle_trans; [apply Rabs_triang_inv2|exact H].
Qed.
Lemma no_tie n c k i : (2 <= n)%nat -> (i < n)%nat -> off_edges n c k -> Z.abs (place n i - c * (Z.of_nat n - 1)) <> (k * (Z.of_nat n - 1))%Z.
Proof.
  intros Hn Hi HO E.
  assert (X : forall m, place n i = (m * (Z.of_nat n - 1))%Z -> List.In m [- Z.of_nat n; 0; Z.of_nat n]%Z).
  { intros m Hm. unfold place in Hm. set (N := Z.of_nat n) in *. set (q := (2 * Z.of_nat i - (N - 1))%Z) in *. assert (BQ : (- (N - 1) <= q <= N - 1)%Z) by (unfold q, N; lia).
    assert (HN : (2 <= N)%Z) by (unfold N; lia). assert (EQ : ((m - q) * (N - 1) = q)%Z) by lia. set (s := (m - q)%Z) in *.
    assert (S1 : (s <= 1)%Z) by (destruct (Z.le_gt_cases s 1) as [|S2]; [assumption|]; assert (2 * (N - 1) <= s * (N - 1))%Z by (apply Z.mul_le_mono_nonneg_r; lia); lia).
    assert (S3 : (-1 <= s)%Z) by (destruct (Z.le_gt_cases (-1) s) as [|S2]; [assumption|]; assert (s * (N - 1) <= -2 * (N - 1))%Z by (apply Z.mul_le_mono_nonneg_r; lia); lia).
    assert (HS : s = (-1)%Z \/ s = 0%Z \/ s = 1%Z) by lia. cbn [List.In]. destruct HS as [HS|[HS|HS]]; rewrite HS in EQ; unfold s in HS; lia. }
  destruct (Z.abs_spec (place n i - c * (Z.of_nat n - 1))) as [[_ A]|[_ A]]; rewrite A in E.
  - destruct (HO (c + k)%Z) as [F _]; [apply X; lia|lia].
  - destruct (HO (c - k)%Z) as [_ F]; [apply X; lia|lia].
Qed.
Lemma centred n k : (0 < k)%Z -> k <> Z.of_nat n -> off_edges n 0 k.
Proof. intros Hk N s Hs. cbn [List.In] in Hs. destruct Hs as [<-|[<-|[<-|[]]]]; lia. Qed.

Section Compare.
Variables (n : nat) (delta dl : R).
Hypothesis Hn : (2 <= n)%nat.
Hypothesis Hn2 : (Z.of_nat n <= 2 ^ 22)%Z.
Hypothesis Hd : powerRZ 2 (-900) <= delta.
Hypothesis Hdl : pixels_long delta dl 1.
Notation g := (delta / (2 * (INR n - 1))).

Lemma unit_bound c : 0 <= c <= 16 -> c * (INR n * delta * u) <= g / 16 /\ 0 <= INR n * delta * u.
Proof.
  intro Hc. assert (D := delta_pos delta Hd). assert (N := n_real n Hn Hn2). assert (U := u_pos). assert (B := nn_bound n Hn Hn2).
  assert (G := g_pos n delta Hn Hn2 Hd). assert (P : 0 <= INR n * delta * u) by (apply Rmult_le_pos; [apply Rmult_le_pos|]; lra). split; [|exact P].
  assert (E : INR n * delta * u = 2 * (INR n * (INR n - 1) * u) * g) by (clear -N; generalize u; intro v; field; lra).
  assert (2 * (INR n * (INR n - 1) * u) * g <= 2 * / 512 * g) by (apply Rmult_le_compat_r; lra). 
  assert (X : c * (INR n * delta * u) <= 16 * (INR n * delta * u)) by (apply Rmult_le_compat_r; lra).
  set (gg := g) in *. set (t := INR n * delta * u) in *. lra.
Qed.
Lemma coord_near i : (i < n)%nat -> near g (grid_coord_f n dl i) (place n i).
Proof.
  intro Hi. unfold near. eapply Rle_trans; [apply coord_error; assumption|]. apply unit_bound. lra.
Qed.
Lemma unit_k k : IZR (k * (Z.of_nat n - 1)) * g = IZR k * delta / 2.
Proof. assert (N := n_real n Hn Hn2). rewrite mult_IZR, minus_IZR, <- INR_IZR_INZ. field. lra. Qed.
Lemma half_near w k : (1 <= k <= 2 * Z.of_nat n)%Z -> Rabs (w - IZR k * delta) <= 12 * u * (IZR k * delta) -> near g (fl (w / 2)) (k * (Z.of_nat n - 1)).
Proof.
  intros Hk Hw. unfold near. rewrite unit_k. assert (D := delta_pos delta Hd). assert (U := u_pos). destruct Hk as [K1 K2]. apply IZR_le in K1, K2. rewrite mult_IZR, <- INR_IZR_INZ in K2.
  assert (KD : 1 * delta <= IZR k * delta) by (apply Rmult_le_compat_r; lra). assert (KN : IZR k * delta <= 2 * INR n * delta) by (apply Rmult_le_compat_r; lra).
  set (q := IZR k * delta) in *. apply Rabs_le_inv in Hw. assert (Q1 : 12 * u * q <= / 64 * q) by (apply Rmult_le_compat_r; lra).
  assert (NW : normal (w / 2)) by (apply (normal_ge delta); [exact Hd|lra]). apply fl_error in NW. rewrite (Rabs_right (w / 2)) in NW by lra.
  assert (u * (w / 2) <= u * q) by (apply Rmult_le_compat_l; lra). apply Rabs_le_inv in NW.
  assert (QU : u * q <= u * (2 * INR n * delta)) by (apply Rmult_le_compat_l; lra). destruct (unit_bound 14 ltac:(lra)) as [B _]. apply Rabs_le. lra.
Qed.
Lemma long_near w k : (1 <= k <= 2 * Z.of_nat n)%Z -> pixels_long delta w k -> near g (fl (w / 2)) (k * (Z.of_nat n - 1)).
Proof.
  intros Hk [_ H]. apply half_near; [exact Hk|]. assert (D := delta_pos delta Hd). assert (U := u_pos). destruct Hk as [K1 _]. apply IZR_le in K1.
  assert (KD : 1 * delta <= IZR k * delta) by (apply Rmult_le_compat_r; lra). rewrite (Rabs_right (IZR k * delta)) in H by lra. rewrite u_50 in H.
  assert (0 <= u * (IZR k * delta)) by (apply Rmult_le_pos; lra). lra.
Qed.
(** |y| < w/2 *)
Lemma band_centred i w k : (i < n)%nat -> (1 <= k <= 2 * Z.of_nat n)%Z -> k <> Z.of_nat n -> pixels_long delta w k ->
  Rltb (Rabs (grid_coord_f n dl i)) (fl (w / 2)) = true <-> in_band n 0 k i.
Proof.
  intros Hi Hk Hkn Hw. rewrite Rltb_spec. assert (G := g_pos n delta Hn Hn2 Hd). assert (C := coord_near i Hi). assert (W := long_near w k Hk Hw). unfold near in C, W.
  apply (abs_close g _ _ _ G) in C. unfold in_band. rewrite Z.mul_0_l, Z.sub_0_r. apply (compare g); [exact G|lra|lra|].
  assert (T := no_tie n 0 k i Hn Hi (centred n k ltac:(lia) Hkn)). rewrite Z.mul_0_l, Z.sub_0_r in T. exact T.
Qed.
Lemma coord_b64 i : b64 (grid_coord_f n dl i).
Proof. unfold grid_coord_f, linspace_f. destruct (Nat.leb n 1); [apply fl_b64|]. destruct (Nat.eqb _ _); apply fl_b64. Qed.
Lemma times_rel (m : Z) : exists a, Rabs a <= 10 * u /\ fl (dl * IZR m) = IZR m * delta * (1 + a).
Proof.
  assert (D := delta_pos delta Hd). assert (U := u_pos). destruct (dl_rel delta dl Hd Hdl) as (a & Ha & E). assert (A := Rabs_le_inv _ _ Ha).
  destruct (fl_rel (dl * IZR m)) as (b & Hb & E2).
  { destruct (Z.eq_dec m 0) as [->|N]; [left; ring|right]. rewrite E, !Rabs_mult. rewrite (Rabs_right delta), (Rabs_right (1 + a)) by lra. rewrite <- abs_IZR.
    assert (M : (1 <= Z.abs m)%Z) by lia. apply IZR_le in M. assert (delta * / 2 * 1 <= delta * (1 + a) * IZR (Z.abs m)) by (apply Rmult_le_compat; try lra; apply Rmult_le_compat; lra).
    destruct tiny as [T1 T2]. lra. }
  destruct (mul1 a b (8 * u) u ltac:(lra) ltac:(lra) Ha Hb) as (c & Ec & Hc). exists c. split; [lra|]. rewrite E2, E.
  replace (delta * (1 + a) * IZR m * (1 + b)) with (IZR m * delta * ((1 + a) * (1 + b))) by ring. rewrite Ec. reflexivity.
Qed.
(** |y - y0| < width/2 with y0 = dl*m *)
Lemma shift_close i m : (i < n)%nat -> (Z.abs m <= Z.of_nat n)%Z ->
  Rabs (fl (grid_coord_f n dl i - fl (dl * IZR m)) - IZR (place n i - 2 * m * (Z.of_nat n - 1)) * g) <= g / 4.
Proof.
  intros Hi Hm. assert (D := delta_pos delta Hd). assert (U := u_pos). assert (N := n_real n Hn Hn2). assert (G := g_pos n delta Hn Hn2 Hd).
  assert (C := coord_error n delta dl Hn Hn2 Hd Hdl i Hi). destruct (times_rel m) as (a & Ha & Ea). set (y := grid_coord_f n dl i) in *. set (c := fl (dl * IZR m)) in *.
  destruct (unit_bound 16 ltac:(lra)) as [B1 B0]. set (t := INR n * delta * u) in *.
  assert (MN : Rabs (IZR m * delta) <= INR n * delta). { rewrite Rabs_mult, (Rabs_right delta) by lra. apply Rmult_le_compat_r; [lra|]. rewrite <- abs_IZR, INR_IZR_INZ. apply IZR_le, Hm. }
  assert (EC : Rabs (c - IZR m * delta) <= 10 * t).
  { rewrite Ea. replace (IZR m * delta * (1 + a) - IZR m * delta) with (IZR m * delta * a) by ring. rewrite Rabs_mult. assert (Rabs (IZR m * delta) * Rabs a <= INR n * delta * (10 * u)) by (apply Rmult_le_compat; try apply Rabs_pos; assumption). unfold t. lra. }
  assert (PB : Rabs (IZR (place n i) * g) <= INR n * delta).
  { rewrite Rabs_mult, (Rabs_right g), <- abs_IZR by lra. assert (PZ : (Z.abs (place n i) <= Z.of_nat n * (Z.of_nat n - 1))%Z).
    { unfold place. rewrite Z.abs_mul. rewrite (Z.abs_eq (Z.of_nat n)) by lia. apply Z.mul_le_mono_nonneg_l; lia. }
    apply IZR_le in PZ. rewrite mult_IZR, minus_IZR, <- INR_IZR_INZ in PZ. apply Rle_trans with (INR n * (INR n - 1) * g); [apply Rmult_le_compat_r; lra|].
    replace (INR n * (INR n - 1) * g) with (INR n * delta / 2) by (field; lra). assert (0 <= INR n * delta) by (apply Rmult_le_pos; lra). lra. }
  assert (EI : IZR (place n i - 2 * m * (Z.of_nat n - 1)) * g = IZR (place n i) * g - IZR m * delta).
  { rewrite minus_IZR, Rmult_minus_distr_r. f_equal. rewrite unit_k, mult_IZR. field. }
  rewrite EI. destruct (fl_plus_rel y (- c)) as (e & He & Ee); [apply coord_b64|unfold c; rewrite <- fl_opp; apply fl_b64|]. unfold Rminus at 2. rewrite Ee.
  set (P := IZR (place n i) * g) in *. set (Q := IZR m * delta) in *.
  assert (T32 : 32 * t <= INR n * delta) by (unfold t; assert (INR n * delta * (32 * u) <= INR n * delta * 1) by (apply Rmult_le_compat_l; [apply Rmult_le_pos; lra|lra]); lra).
  apply Rabs_le_inv in C, EC, PB, MN. 
  assert (X : Rabs (y + - c) <= 4 * (INR n * delta)) by (apply Rabs_le; lra).
  assert (Y : Rabs ((y + - c) * e) <= 4 * t). { rewrite Rabs_mult. unfold t. assert (Rabs (y + - c) * Rabs e <= 4 * (INR n * delta) * u) by (apply Rmult_le_compat; try apply Rabs_pos; assumption). lra. }
  apply Rabs_le_inv in Y. replace ((y + - c) * (1 + e)) with (y - c + (y + - c) * e) by ring. apply Rabs_le. lra.
Qed.
Lemma band_shifted i m k : (i < n)%nat -> (Z.abs m <= Z.of_nat n)%Z -> (1 <= k <= 2 * Z.of_nat n)%Z -> off_edges n (2 * m) k ->
  Rltb (Rabs (fl (grid_coord_f n dl i - fl (dl * IZR m)))) (fl (fl (dl * IZR k) / 2)) = true <-> in_band n (2 * m) k i.
Proof.
  intros Hi Hm Hk HO. rewrite Rltb_spec. assert (G := g_pos n delta Hn Hn2 Hd). assert (C := shift_close i m Hi Hm). apply (abs_close g _ _ _ G) in C.
  assert (W : near g (fl (fl (dl * IZR k) / 2)) (k * (Z.of_nat n - 1))).
  { apply half_near; [exact Hk|]. destruct (times_rel k) as (a & Ha & Ea). rewrite Ea. replace (IZR k * delta * (1 + a) - IZR k * delta) with (IZR k * delta * a) by ring. rewrite Rabs_mult.
    assert (D := delta_pos delta Hd). assert (U := u_pos). destruct Hk as [K1 _]. apply IZR_le in K1. assert (KD : 1 * delta <= IZR k * delta) by (apply Rmult_le_compat_r; lra).
    rewrite (Rabs_right (IZR k * delta)) by lra. assert (IZR k * delta * Rabs a <= IZR k * delta * (10 * u)) by (apply Rmult_le_compat_l; lra). assert (0 <= u * (IZR k * delta)) by (apply Rmult_le_pos; lra). lra. }
  unfold near in W. unfold in_band. apply (compare g); [exact G|lra|lra|]. apply no_tie; assumption.
Qed.
(** |y - y_mid| < H/2 with y_mid = dl*0 *)
Lemma band_mid i w k : (i < n)%nat -> (1 <= k <= 2 * Z.of_nat n)%Z -> k <> Z.of_nat n -> pixels_long delta w k ->
  Rltb (Rabs (fl (grid_coord_f n dl i - fl (dl * IZR 0)))) (fl (w / 2)) = true <-> in_band n 0 k i.
Proof.
  intros Hi Hk Hkn Hw. rewrite <- (band_centred i w k Hi Hk Hkn Hw). rewrite Rmult_0_r, (fl_id 0), Rminus_0_r, fl_id; [reflexivity|apply coord_b64|apply (b64_IZR 0); reflexivity].
Qed.
Lemma left_of_middle i : (i < n)%nat -> (2 * i + 1 <> n)%nat -> Rltb (grid_coord_f n dl i) 0 = true <-> (place n i < 0)%Z.
Proof.
  intros Hi N. rewrite Rltb_spec. assert (G := g_pos n delta Hn Hn2 Hd). assert (C := coord_near i Hi). unfold near in C. apply (compare g); [exact G|lra|rewrite Rmult_0_l, Rminus_0_r, Rabs_R0; lra|].
  unfold place. intro E. apply Z.eq_mul_0 in E. lia.
Qed.
Lemma right_of_middle i : (i < n)%nat -> (2 * i + 1 <> n)%nat -> Rltb 0 (grid_coord_f n dl i) = true <-> (0 < place n i)%Z.
Proof.
  intros Hi N. rewrite Rltb_spec. assert (G := g_pos n delta Hn Hn2 Hd). assert (C := coord_near i Hi). unfold near in C. apply (compare g); [exact G|rewrite Rmult_0_l, Rminus_0_r, Rabs_R0; lra|lra|].
  unfold place. intro E. symmetry in E. apply Z.eq_mul_0 in E. lia.
Qed.
End Compare.

(** ** C105: theorems *)
(** The pixel coordinates are those of the exact grid up to a relative 2^-49 of its length, increase
    from each pixel to the next, and the two ends are opposite. *)
Theorem C105_coordinates : forall n delta dl, (2 <= n)%nat -> (Z.of_nat n <= 2 ^ 22)%Z -> powerRZ 2 (-900) <= delta -> pixels_long delta dl 1 ->
  (forall i, (i < n)%nat -> Rabs (grid_coord_f n dl i - coordinate n delta i) <= / 2 ^ 49 * (INR n * delta)) /\
  (forall i j, (i < j)%nat -> (j < n)%nat -> grid_coord_f n dl i < grid_coord_f n dl j) /\
  grid_coord_f n dl (n - 1) = - grid_coord_f n dl 0.
Proof.
  intros n delta dl Hn Hn2 Hd Hdl. assert (G := g_pos n delta Hn Hn2 Hd). assert (N := n_real n Hn Hn2). split; [|split].
  - intros i Hi. assert (C := coord_error n delta dl Hn Hn2 Hd Hdl i Hi). replace (coordinate n delta i) with (IZR (place n i) * (delta / (2 * (INR n - 1)))).
    + replace (/ 2 ^ 49 * (INR n * delta)) with (16 * (INR n * delta * u)); [exact C|]. rewrite (pow_IZR 2 53), (pow_IZR 2 49). cbn -[IZR INR]. lra.
    + unfold coordinate, place. rewrite mult_IZR, minus_IZR, mult_IZR, minus_IZR, <- !INR_IZR_INZ. field. lra.
  - intros i j Hij Hj. assert (C1 := coord_near n delta dl Hn Hn2 Hd Hdl i ltac:(lia)). assert (C2 := coord_near n delta dl Hn Hn2 Hd Hdl j Hj). unfold near in C1, C2.
    apply (compare _ _ _ (place n i) (place n j) G); [lra|lra| |]; unfold place.
    + intro E. apply Z.mul_reg_l in E; lia.
    + apply Z.mul_lt_mono_pos_l; lia.
  - unfold grid_coord_f, linspace_f. destruct (Nat.leb_spec n 1); [lia|]. rewrite Nat.eqb_refl. destruct (Nat.eqb_spec 0 (n - 1)); [lia|].
    simpl (INR 0). rewrite Rmult_0_l, (fl_id 0), Rplus_0_l, (fl_id (fl _)), start_opp; [ring|apply fl_b64|apply (b64_IZR 0); reflexivity].
Qed.

Lemma build_f_values Nx Ny dl rs ds a b e d : build_f Nx Ny dl rs ds a b = Ok (e, d) -> rs <> [] -> ds <> [] ->
  Z.of_nat (nd_nx e) = Nx /\ Z.of_nat (nd_ny e) = Ny /\ nd_nx d = nd_nx e /\ nd_ny d = nd_ny e /\
  forall i j, (i < nd_nx e)%nat -> (j < nd_ny e)%nat ->
    let x := grid_coord_f (nd_nx e) dl i in let y := grid_coord_f (nd_ny e) dl j in
    nd_at e i j = (if existsb (fun r : region => r x y) rs then a else b) /\
    nd_at d i j = (if existsb (fun r : region => r x y) ds then 1 else 0).
Proof.
  intros H Hr Hs. unfold build_f, grid_size in H. destruct (Z.ltb_spec Nx 0); [discriminate|]. destruct (Z.ltb_spec Ny 0); [discriminate|]. cbn [rbind] in H.
  unfold apply_regions_f in H. destruct rs as [|r rs]; [congruence|]. destruct ds as [|q ds]; [congruence|]. destruct (Nat.eqb _ 0); [discriminate|]. cbn [rbind] in H. injection H as <- <-.
  cbn [nd_nx nd_ny]. do 2 (split; [apply Z2Nat.id; assumption|]). do 2 (split; [reflexivity|]). intros i j Hi Hj.
  assert (F : forall (l : list region) (v w X Y : R), fold_left (fun z (reg : region) => if reg X Y then w else z) l v = if existsb (fun reg : region => reg X Y) l then w else v).
  { induction l as [|t l IH]; intros v w X Y; [reflexivity|]. cbn [fold_left existsb]. rewrite IH. destruct (t X Y); cbn [orb]; [destruct (existsb _ l); reflexivity|reflexivity]. }
  unfold nd_at. cbn [nd_buf nd_ny]. destruct (PMode.flat2 i _ j Hj) as [E1 E2]. rewrite E1, E2, !F. cbn [existsb]. split; [destruct (r _ _)|destruct (q _ _)]; cbn [orb]; destruct (existsb _ _); try reflexivity; lra.
Qed.

(** one length of a structure: k pixels, at most twice the grid and not exactly the grid *)
Definition fits (delta x : R) (k : Z) (n : nat) : Prop := pixels_long delta x k /\ (1 <= k <= 2 * Z.of_nat n)%Z /\ k <> Z.of_nat n.
Definition grid_fits (n : nat) : Prop := (2 <= n)%nat /\ (Z.of_nat n <= 2 ^ 22)%Z.
(** [tells P a v w]: a is v if P and w if not *)
Definition tells (P : Prop) (a v w : R) : Prop := (P -> a = v) /\ (~ P -> a = w).
Lemma tells_if P (b : bool) v w : (b = true <-> P) -> tells P (if b then v else w) v w.
Proof. intro H. split; intro HP; destruct b; try reflexivity; exfalso; [apply H in HP; discriminate|apply HP, H; reflexivity]. Qed.

(** Two ports: when the lengths are whole numbers of pixels, the permittivity and the design region
    computed in floating point are decided by integers alone. *)
Theorem C105_two_port : forall delta L H w l spc dl kL kH kw p0 p1 eps_start e d,
  powerRZ 2 (-900) <= delta -> pixels_long delta dl 1 ->
  two_port_f L H w l spc dl [p0; p1] eps_start = Ok (e, d) ->
  grid_fits (nd_nx e) -> grid_fits (nd_ny e) -> fits delta L kL (nd_nx e) -> fits delta H kH (nd_ny e) -> fits delta w kw (nd_ny e) ->
  (Z.of_nat (nd_nx e), Z.of_nat (nd_ny e)) = port_shape_f L H l spc dl p0 p1 /\ nd_nx d = nd_nx e /\ nd_ny d = nd_ny e /\
  forall i j, (i < nd_nx e)%nat -> (j < nd_ny e)%nat ->
    tells (in_band (nd_ny e) 0 kw j) (nd_at e i j) eps_start 1 /\
    tells (in_band (nd_nx e) 0 kL i /\ in_band (nd_ny e) 0 kH j) (nd_at d i j) 1 0.
Proof.
  intros delta L H w l spc dl kL kH kw p0 p1 eps_start e d Hd Hdl HB [X1 X2] [Y1 Y2] (L1 & L2 & L3) (H1 & H2 & H3) (w1 & w2 & w3).
  unfold two_port_f, npml_at, py_div in HB. destruct (Req_EM_T dl 0); [discriminate|]. cbn [nth_error rbind] in HB.
  destruct (build_f_values _ _ _ _ _ _ _ _ _ HB ltac:(discriminate) ltac:(discriminate)) as (SX & SY & DX & DY & V).
  split; [rewrite SX, SY; unfold port_shape_f, cells_f; rewrite (Rplus_comm H); reflexivity|]. do 2 (split; [assumption|]).
  intros i j Hi Hj. destruct (V i j Hi Hj) as [-> ->]. cbn [existsb]. rewrite !orb_false_r. split; apply tells_if.
  - apply (band_centred (nd_ny e) delta dl); assumption.
  - unfold box_f. rewrite andb_true_iff. rewrite (band_centred (nd_nx e) delta dl X1 X2 Hd Hdl i L kL), (band_centred (nd_ny e) delta dl Y1 Y2 Hd Hdl j H kH) by assumption. reflexivity.
Qed.

(** ... so they are mirror images of themselves in both directions *)
Lemma place_mirror n i : (i < n)%nat -> place n (n - 1 - i) = (- place n i)%Z.
Proof. intro H. unfold place. replace (Z.of_nat (n - 1 - i)) with (Z.of_nat n - 1 - Z.of_nat i)%Z by lia. ring. Qed.
Lemma band_mirror n k i : (i < n)%nat -> in_band n 0 k (n - 1 - i) <-> in_band n 0 k i.
Proof. intro H. unfold in_band. rewrite place_mirror by exact H. rewrite Z.mul_0_l, !Z.sub_0_r, Z.abs_opp. reflexivity. Qed.
Lemma tells_same P Q a b v w : (P <-> Q) -> tells P a v w -> tells Q b v w -> a = b.
Proof.
  intros E [A1 A2] [B1 B2]. destruct (Classical_Prop.classic P) as [HP|HP]; [rewrite A1, B1 by tauto|rewrite A2, B2 by tauto]; reflexivity.
Qed.
Theorem C105_two_port_mirror : forall delta L H w l spc dl kL kH kw p0 p1 eps_start e d,
  powerRZ 2 (-900) <= delta -> pixels_long delta dl 1 ->
  two_port_f L H w l spc dl [p0; p1] eps_start = Ok (e, d) ->
  grid_fits (nd_nx e) -> grid_fits (nd_ny e) -> fits delta L kL (nd_nx e) -> fits delta H kH (nd_ny e) -> fits delta w kw (nd_ny e) ->
  mirror_x e /\ mirror_y e /\ mirror_x d /\ mirror_y d.
Proof.
  intros delta L H w l spc dl kL kH kw p0 p1 eps_start e d Hd Hdl HB GX GY FL FH Fw.
  destruct (C105_two_port _ _ _ _ _ _ _ _ _ _ _ _ _ _ _ Hd Hdl HB GX GY FL FH Fw) as (_ & DX & DY & V).
  split; [|split; [|split]]; intros i j; rewrite ?DX, ?DY; intros Hi Hj.
  - eapply tells_same; [|exact (proj1 (V i j Hi Hj))|exact (proj1 (V (nd_nx e - 1 - i)%nat j ltac:(lia) Hj))]. reflexivity.
  - eapply tells_same; [|exact (proj1 (V i j Hi Hj))|exact (proj1 (V i (nd_ny e - 1 - j)%nat Hi ltac:(lia)))]. symmetry. apply band_mirror, Hj.
  - eapply tells_same; [|exact (proj2 (V i j Hi Hj))|exact (proj2 (V (nd_nx e - 1 - i)%nat j ltac:(lia) Hj))]. rewrite band_mirror by exact Hi. reflexivity.
  - eapply tells_same; [|exact (proj2 (V i j Hi Hj))|exact (proj2 (V i (nd_ny e - 1 - j)%nat Hi ltac:(lia)))]. rewrite band_mirror by exact Hj. reflexivity.
Qed.

(** ... and they are what exact arithmetic makes of the exact lengths on the same grid *)
Lemma exact_band n delta k i : (2 <= n)%nat -> 0 < delta -> Rabs (grid_coord n delta i) < IZR k * delta / 2 <-> in_band n 0 k i.
Proof.
  intros Hn Hd. assert (N : 2 <= INR n) by (change 2 with (INR 2); apply le_INR, Hn).
  assert (E : grid_coord n delta i = IZR (place n i) * (delta / (2 * (INR n - 1)))).
  { unfold grid_coord, linspace, place. destruct (Nat.leb_spec n 1); [lia|]. rewrite mult_IZR, minus_IZR, mult_IZR, minus_IZR, <- !INR_IZR_INZ, minus_INR by lia. simpl (INR 1). field. lra. }
  assert (G : 0 < delta / (2 * (INR n - 1))) by (apply Rdiv_lt_0_compat; lra).
  rewrite E, Rabs_mult, (Rabs_right (delta / _)), <- abs_IZR by lra. replace (IZR k * delta / 2) with (IZR (k * (Z.of_nat n - 1)) * (delta / (2 * (INR n - 1)))) by (rewrite mult_IZR, minus_IZR, <- INR_IZR_INZ; field; lra).
  unfold in_band. rewrite Z.mul_0_l, Z.sub_0_r. split; intro H.
  - apply lt_IZR. apply Rmult_lt_reg_r with (2 := H). exact G.
  - apply Rmult_lt_compat_r; [exact G|]. apply IZR_lt, H.
Qed.
Theorem C105_two_port_as_exact : forall delta L H w l spc dl kL kH kw p0 p1 eps_start e d l' spc' p0' p1' e' d',
  powerRZ 2 (-900) <= delta -> pixels_long delta dl 1 ->
  two_port_f L H w l spc dl [p0; p1] eps_start = Ok (e, d) ->
  grid_fits (nd_nx e) -> grid_fits (nd_ny e) -> fits delta L kL (nd_nx e) -> fits delta H kH (nd_ny e) -> fits delta w kw (nd_ny e) ->
  two_port (IZR kL * delta) (IZR kH * delta) (IZR kw * delta) l' spc' delta [p0'; p1'] eps_start = Ok (e', d') ->
  nd_nx e' = nd_nx e -> nd_ny e' = nd_ny e ->
  forall i j, (i < nd_nx e)%nat -> (j < nd_ny e)%nat -> nd_at e i j = nd_at e' i j /\ nd_at d i j = nd_at d' i j.
Proof.
  intros delta L H w l spc dl kL kH kw p0 p1 eps_start e d l' spc' p0' p1' e' d' Hd Hdl HB GX GY FL FH Fw HE EX EY i j Hi Hj.
  destruct (C105_two_port _ _ _ _ _ _ _ _ _ _ _ _ _ _ _ Hd Hdl HB GX GY FL FH Fw) as (_ & _ & _ & V). destruct (V i j Hi Hj) as [V1 V2].
  destruct (C61_two_port _ _ _ _ _ _ _ _ _ _ HE) as (? & ? & ? & ? & _ & _ & _ & _ & _ & _ & _ & DX & DY & F1 & F2).
  assert (D := delta_pos delta Hd). destruct GX as [GX _], GY as [GY _].
  specialize (F1 i j ltac:(lia) ltac:(lia)). specialize (F2 i j ltac:(lia) ltac:(lia)). cbv zeta in F1, F2. rewrite DX, DY in F2. rewrite EX, EY in F1, F2.
  split.
  - eapply tells_same; [|exact V1|exact F1]. symmetry. apply exact_band; assumption.
  - eapply tells_same; [|exact V2|exact F2]. rewrite !exact_band by assumption. reflexivity.
Qed.

(** Three ports: the same.  The guides are px pixels wide, the outputs b and t pixels from the
    middle, all three counted in floating point.  Left out: the middle column of an odd number of
    columns, where the sign of x is a matter of rounding. *)
Theorem C105_three_port : forall delta L H w dd l spc dl kL kH p0 p1 eps_start bg e d,
  powerRZ 2 (-900) <= delta -> pixels_long delta dl 1 ->
  three_port_f L H w dd l spc dl [p0; p1] eps_start bg = Ok (e, d) ->
  let Nx := nd_nx e in let Ny := nd_ny e in
  let px := width_px_f w dl in let half_d := fl (fl (dd / 2) / dl) in let odd := IZR (Z.of_nat Ny mod 2) / 2 in
  let b := py_int (fl (odd - half_d)) in let t := py_int (fl (odd + half_d)) in
  grid_fits Nx -> grid_fits Ny -> fits delta L kL Nx -> fits delta H kH Ny ->
  (1 <= px <= 2 * Z.of_nat Ny)%Z -> (Z.abs b <= Z.of_nat Ny)%Z -> (Z.abs t <= Z.of_nat Ny)%Z ->
  off_edges Ny 0 px -> off_edges Ny (2 * b) px -> off_edges Ny (2 * t) px ->
  (Z.of_nat Nx, Z.of_nat Ny) = port_shape_f L H l spc dl p0 p1 /\ nd_nx d = Nx /\ nd_ny d = Ny /\
  forall i j, (i < Nx)%nat -> (j < Ny)%nat ->
    let box := in_band Nx 0 kL i /\ in_band Ny 0 kH j in
    ((2 * i + 1 <> Nx)%nat -> tells (box \/ ((2 * i + 1 < Nx)%nat /\ in_band Ny 0 px j) \/ ((Nx < 2 * i + 1)%nat /\ (in_band Ny (2 * b) px j \/ in_band Ny (2 * t) px j)))
                                    (nd_at e i j) eps_start bg) /\
    (box -> nd_at e i j = eps_start) /\ tells box (nd_at d i j) 1 0.
Proof.
  intros delta L H w dd l spc dl kL kH p0 p1 eps_start bg e d Hd Hdl HB Nx Ny px half_d odd b t GX GY (L1 & L2 & L3) (H1 & H2 & H3) Hpx Hb Ht O0 Ob Ot.
  destruct GX as [X1 X2], GY as [Y1 Y2]. unfold three_port_f, npml_at, py_div in HB. destruct (Req_EM_T dl 0); [discriminate|]. cbn [nth_error rbind] in HB.
  destruct (build_f_values _ _ _ _ _ _ _ _ _ HB ltac:(discriminate) ltac:(discriminate)) as (SX & SY & DX & DY & V).
  fold Nx in SX, DX, V. fold Ny in SY, DY, V.
  split; [rewrite SX, SY; unfold port_shape_f, cells_f; rewrite (Rplus_comm H); reflexivity|]. do 2 (split; [assumption|]). rewrite <- SY in V.
  assert (EO : fl (fl (IZR (Z.of_nat Ny) / 2) - IZR (half_f (Z.of_nat Ny))) = odd).
  { destruct (C104_halves_and_windows_exact (Z.of_nat Ny) 0 0) as [-> _]; [lia|lia|]. rewrite Z.quot_div_nonneg by lia. rewrite (fl_id (IZR _ / 2)) by (rewrite <- INR_IZR_INZ; apply b64_half_nat; lia).
    assert (DM := Z.div_mod (Z.of_nat Ny) 2 ltac:(lia)). assert (MB := Z.mod_pos_bound (Z.of_nat Ny) 2 ltac:(lia)).
    replace (IZR (Z.of_nat Ny) / 2 - IZR (Z.of_nat Ny / 2)) with odd by (unfold odd; assert (ER : IZR (Z.of_nat Ny) = 2 * IZR (Z.of_nat Ny / 2) + IZR (Z.of_nat Ny mod 2)) by (rewrite <- mult_IZR, <- plus_IZR; apply f_equal; exact DM); lra).
    apply fl_id. exists (Z.of_nat Ny mod 2)%Z, (-1)%Z. change (powerRZ 2 (-1)) with (/ (2 * 1)). split; [unfold odd; lra|]. split; lia. }
  rewrite EO in V. fold half_d b t px in V.
  assert (E0 : py_int odd = 0%Z) by (unfold odd; apply PropsStruct.py_int_half). rewrite E0 in V.
  intros i j Hi Hj box. destruct (V i j Hi Hj) as [E1 E2]. clear V.
  assert (BX : box_mid_f L H (fl (dl * IZR 0)) (grid_coord_f Nx dl i) (grid_coord_f Ny dl j) = true <-> box).
  { unfold box_mid_f, box. rewrite andb_true_iff, (band_centred Nx delta dl X1 X2 Hd Hdl i L kL), (band_mid Ny delta dl Y1 Y2 Hd Hdl j H kH) by assumption. reflexivity. }
  cbn [existsb] in E1, E2. rewrite orb_false_r in E1, E2. split; [|split].
  - intro NM. rewrite E1. apply tells_if. rewrite !orb_true_iff, BX. unfold left_guide_f, right_guide_f. rewrite !andb_true_iff.
    rewrite (left_of_middle Nx delta dl X1 X2 Hd Hdl i Hi NM), (right_of_middle Nx delta dl X1 X2 Hd Hdl i Hi NM).

    rewrite (band_shifted Ny delta dl Y1 Y2 Hd Hdl j 0 px Hj ltac:(lia) Hpx O0), (band_shifted Ny delta dl Y1 Y2 Hd Hdl j b px Hj Hb Hpx Ob), (band_shifted Ny delta dl Y1 Y2 Hd Hdl j t px Hj Ht Hpx Ot).
    assert (PL : (place Nx i < 0)%Z <-> (2 * i + 1 < Nx)%nat). { unfold place. split; intro Q; [|apply Z.mul_pos_neg; lia]. destruct (Nat.lt_ge_cases (2 * i + 1) Nx) as [|Q2]; [assumption|exfalso]. assert (0 <= Z.of_nat Nx * (2 * Z.of_nat i - (Z.of_nat Nx - 1)))%Z by (apply Z.mul_nonneg_nonneg; lia). lia. }
    assert (PR : (0 < place Nx i)%Z <-> (Nx < 2 * i + 1)%nat). { unfold place. split; intro Q; [|apply Z.mul_pos_pos; lia]. destruct (Nat.lt_ge_cases Nx (2 * i + 1)) as [|Q2]; [assumption|exfalso]. assert (Z.of_nat Nx * (2 * Z.of_nat i - (Z.of_nat Nx - 1)) <= 0)%Z by (apply Z.mul_nonneg_nonpos; lia). lia. }
    rewrite PL, PR. change (2 * 0)%Z with 0%Z. tauto.
  - intro HBX. rewrite E1. apply BX in HBX. rewrite HBX. reflexivity.
  - rewrite E2. apply tells_if. exact BX.
Qed.

(** decimal lengths of a whole number of pixels are such lengths: a literal, or one product of floats *)
Theorem C105_decimals : forall delta k, powerRZ 2 (-900) <= delta -> pixels_long delta (fl (IZR k * delta)) k.
Proof.
  intros delta k Hd. assert (D := delta_pos delta Hd). assert (U := u_pos). split; [apply fl_b64|]. rewrite u_50.
  assert (NK : normal (IZR k * delta)).
  { destruct (Z.eq_dec k 0) as [->|N]; [left; ring|right]. rewrite Rabs_mult, (Rabs_right delta), <- abs_IZR by lra. assert (M : (1 <= Z.abs k)%Z) by lia. apply IZR_le in M.
    assert (1 * delta <= IZR (Z.abs k) * delta) by (apply Rmult_le_compat_r; lra). destruct tiny as [T1 T2]. lra. }
  apply fl_error in NK. eapply Rle_trans; [exact NK|]. apply Rmult_le_compat_r; [apply Rabs_pos|lra].
Qed.

(** Lengths that are not whole numbers of pixels: rounding can break the symmetry.  A guide 4/3 pixels wide on four
    rows, whose edges lie on the centres of rows 1 and 2, contains row 2 and not row 1. *)
Definition c4 : f64 := @BinarySingleNaN.B754_finite 53 1024 false 4503599627370496 (-50) eq_refl.
Lemma four_thirds : fl (4 / 3) = 6004799503160661 * / 2 ^ 52.
Proof.
  destruct c_values as (_ & E3 & _). assert (E4 : BinarySingleNaN.B2R c4 = 4) by (unfold c4, BinarySingleNaN.B2R, F2R, Fnum, Fexp, cond_Zopp, bpow; cbn -[IZR]; lra).
  destruct (f64_div_spec c4 c3 6004799503160661 (-52)) as [A _]; [lra|vm_compute; reflexivity|]. rewrite E3, E4 in A. rewrite A. rewrite (pow_IZR 2 52). unfold bpow. cbn -[IZR]. lra.
Qed.
Lemma four_rows : grid_coord_f 4 1 1 = fl (4 / 3) - 2 /\ grid_coord_f 4 1 2 = 2 * fl (4 / 3) - 2.
Proof.
  assert (B2 : b64 2) by (apply (b64_IZR 2); reflexivity). assert (B4 : b64 4) by (apply (b64_IZR 4); reflexivity).
  assert (S2 : fl (fl (INR 4 / 2) * 1) = 2). { replace (INR 4 / 2) with 2 by (cbn; lra). rewrite !Rmult_1_r, !(fl_id 2) by exact B2. reflexivity. }
  assert (S1 : fl (fl (- INR 4 / 2) * 1) = -2) by (rewrite start_opp, S2; lra).
  unfold grid_coord_f, linspace_f. cbn [Nat.leb Nat.eqb Nat.sub]. rewrite S1, S2. replace (2 - -2) with 4 by lra. rewrite (fl_id 4) by exact B4.
  replace (INR 3) with 3 by (cbn; lra). replace (INR 1) with 1 by reflexivity. replace (INR 2) with 2 by (cbn; lra). rewrite Rmult_1_l, (fl_id (fl (4 / 3))) by apply fl_b64.
  rewrite (fl_times2 (fl (4 / 3))) by apply fl_b64. split.
  - replace (fl (4 / 3) + -2) with (fl (4 / 3) - 2) by ring. apply fl_id. exists (6004799503160661 - 2 * 2 ^ 52)%Z, (-52)%Z. rewrite four_thirds, powerRZ_bpow, (pow_IZR 2 52). unfold bpow. cbn -[IZR]. split; [lra|lia].
  - replace (2 * fl (4 / 3) + -2) with (2 * fl (4 / 3) - 2) by ring. apply fl_id. exists (2 * 6004799503160661 - 2 * 2 ^ 52)%Z, (-52)%Z. rewrite four_thirds, powerRZ_bpow, (pow_IZR 2 52). unfold bpow. cbn -[IZR]. split; [lra|lia].
Qed.
Lemma whole n : (Z.abs n < 2 ^ 53)%Z -> fl (IZR n) = IZR n. Proof. intro H. apply fl_id, b64_IZR, H. Qed.
Lemma py_int_IZR n : (0 <= n)%Z -> py_int (IZR n) = n.
Proof. intro H. apply PropsStruct.py_int_unique. apply IZR_le in H. split; intro; lra. Qed.
Theorem C105_mirror_refuted : ~ (forall L H w l spc dl NPML eps_start e d, b64 L -> b64 H -> b64 w -> b64 l -> b64 spc -> b64 dl -> 0 < dl ->
  two_port_f L H w l spc dl NPML eps_start = Ok (e, d) -> mirror_y e).
Proof.
  intro C. destruct (two_port_f 2 4 (fl (4 / 3)) 1 0 1 [0; 0]%Z 2) as [[e d]|] eqn:E.
  - assert (M := C _ _ _ _ _ _ _ _ _ _ (b64_IZR 2 eq_refl) (b64_IZR 4 eq_refl) (fl_b64 _) (b64_IZR 1 eq_refl) (b64_IZR 0 eq_refl) (b64_IZR 1 eq_refl) Rlt_0_1 E). clear C.
    unfold two_port_f, npml_at, py_div in E. destruct (Req_EM_T 1 0); [lra|]. cbn [nth_error rbind] in E.
    destruct (build_f_values _ _ _ _ _ _ _ _ _ E ltac:(discriminate) ltac:(discriminate)) as (SX & SY & _ & _ & V). clear E.
    assert (Q1 : fl (2 * 1) = 2) by (replace (2 * 1) with 2 by lra; apply (whole 2); reflexivity). assert (Q2 : fl (2 + 2) = 4) by (replace (2 + 2) with 4 by lra; apply (whole 4); reflexivity).
    assert (Q3 : fl (2 * 0) = 0) by (replace (2 * 0) with 0 by lra; apply (whole 0); reflexivity). assert (Q4 : fl (4 + 0) = 4) by (replace (4 + 0) with 4 by lra; apply (whole 4); reflexivity).
    assert (Q5 : fl (4 / 1) = 4) by (replace (4 / 1) with 4 by lra; apply (whole 4); reflexivity).
    rewrite Q1, Q2, Q5, (py_int_IZR 4) in SX by lia. rewrite Q3, Q4, Q5, (py_int_IZR 4) in SY by lia.
    assert (NX : nd_nx e = 4%nat) by lia. assert (NY : nd_ny e = 4%nat) by lia. rewrite NX, NY in V. clear SX SY.
    specialize (M 0%nat 1%nat ltac:(lia) ltac:(lia)). rewrite NY in M. change (4 - 1 - 1)%nat with 2%nat in M.
    rewrite (proj1 (V 0%nat 1%nat ltac:(lia) ltac:(lia))), (proj1 (V 0%nat 2%nat ltac:(lia) ltac:(lia))) in M. cbn [existsb] in M. rewrite !orb_false_r in M. unfold through_guide_f in M.
    destruct four_rows as [R1 R2]. rewrite R1, R2 in M.
    assert (W : fl (fl (4 / 3) / 2) = fl (4 / 3) / 2). { apply fl_id. exists 6004799503160661%Z, (-53)%Z. rewrite four_thirds, powerRZ_bpow, (pow_IZR 2 52). unfold bpow. cbn -[IZR]. split; [lra|lia]. }
    rewrite W in M. assert (X : fl (4 / 3) < 4 / 3 /\ 1 < fl (4 / 3)) by (rewrite four_thirds, (pow_IZR 2 52); cbn -[IZR]; lra).
    unfold Rltb in M. rewrite (Rabs_left (fl (4 / 3) - 2)), (Rabs_right (2 * fl (4 / 3) - 2)) in M by lra. destruct (Rlt_dec _ _) as [A|A] in M; [lra|]. destruct (Rlt_dec _ _) as [B|B] in M; lra.
  - unfold two_port_f, npml_at, py_div in E. destruct (Req_EM_T 1 0); [lra|]. cbn [nth_error rbind] in E. unfold build_f, grid_size in E.
    assert (Q1 : fl (2 * 1) = 2) by (replace (2 * 1) with 2 by lra; apply (whole 2); reflexivity). assert (Q2 : fl (2 + 2) = 4) by (replace (2 + 2) with 4 by lra; apply (whole 4); reflexivity).
    assert (Q3 : fl (2 * 0) = 0) by (replace (2 * 0) with 0 by lra; apply (whole 0); reflexivity). assert (Q4 : fl (4 + 0) = 4) by (replace (4 + 0) with 4 by lra; apply (whole 4); reflexivity).
    assert (Q5 : fl (4 / 1) = 4) by (replace (4 / 1) with 4 by lra; apply (whole 4); reflexivity).
    rewrite Q1, Q2, Q3, Q4, Q5, (py_int_IZR 4) in E by lia. discriminate.
Qed.

(** the hypotheses are met: a box of 2 by 2 with guides 3/8 wide and 1 long, margins 1/2, step 1/8 *)
Example C105_met : exists e d, two_port_f 2 2 (3 / 8) 1 (1 / 2) (1 / 8) [10; 15]%Z 5 = Ok (e, d) /\
  powerRZ 2 (-900) <= 1 / 8 /\ pixels_long (1 / 8) (1 / 8) 1 /\ nd_nx e = 52%nat /\ nd_ny e = 54%nat /\ grid_fits 52 /\ grid_fits 54 /\
  fits (1 / 8) 2 16 52 /\ fits (1 / 8) 2 16 54 /\ fits (1 / 8) (3 / 8) 3 54 /\ in_band 54 0 3 26 /\ ~ in_band 54 0 3 25.
Proof.
  assert (Q1 : fl (2 * 1) = 2) by (replace (2 * 1) with 2 by lra; apply (whole 2); reflexivity). assert (Q2 : fl (2 + 2) = 4) by (replace (2 + 2) with 4 by lra; apply (whole 4); reflexivity).
  assert (Q3 : fl (2 * (1 / 2)) = 1) by (replace (2 * (1 / 2)) with 1 by lra; apply (whole 1); reflexivity). assert (Q4 : fl (2 + 1) = 3) by (replace (2 + 1) with 3 by lra; apply (whole 3); reflexivity).
  assert (Q5 : fl (4 / (1 / 8)) = 32) by (replace (4 / (1 / 8)) with 32 by lra; apply (whole 32); reflexivity). assert (Q6 : fl (3 / (1 / 8)) = 24) by (replace (3 / (1 / 8)) with 24 by lra; apply (whole 24); reflexivity).
  destruct (two_port_f 2 2 (3 / 8) 1 (1 / 2) (1 / 8) [10; 15]%Z 5) as [[e d]|] eqn:E; unfold two_port_f, npml_at, py_div in E; (destruct (Req_EM_T (1 / 8) 0); [lra|]); cbn [nth_error rbind] in E;
  rewrite Q1, Q2, Q3, Q4, Q5, Q6, (py_int_IZR 32), (py_int_IZR 24) in E by lia; [|discriminate].
  destruct (build_f_values _ _ _ _ _ _ _ _ _ E ltac:(discriminate) ltac:(discriminate)) as (SX & SY & _).
  assert (PL : forall x m k s, x = IZR m * powerRZ 2 s -> (Z.abs m < 2 ^ 53)%Z -> (-1074 <= s)%Z -> x = IZR k * (1 / 8) -> pixels_long (1 / 8) x k).
  { intros x m k s Hx Hm Hs Hk. split; [exists m, s; auto|]. rewrite <- Hk. unfold Rminus. rewrite Rplus_opp_r, Rabs_R0. apply Rmult_le_pos; [rewrite u_50; assert (U := u_pos); lra|apply Rabs_pos]. }
  assert (P8 : powerRZ 2 (-3) = 1 / 8) by (change (powerRZ 2 (-3)) with (/ (2 * (2 * (2 * 1)))); lra).
  exists e, d. split; [reflexivity|]. split; [rewrite <- P8; rewrite !powerRZ_bpow; apply bpow_le; lia|]. split; [apply (PL _ 1%Z 1%Z (-3)%Z); [rewrite P8; lra|lia|lia|lra]|].
  split; [lia|]. split; [lia|]. do 2 (split; [unfold grid_fits; lia|]).
  split; [split; [apply (PL _ 16%Z 16%Z (-3)%Z); [rewrite P8; lra|lia|lia|lra]|lia]|]. split; [split; [apply (PL _ 16%Z 16%Z (-3)%Z); [rewrite P8; lra|lia|lia|lra]|lia]|].
  split; [split; [apply (PL _ 3%Z 3%Z (-3)%Z); [rewrite P8; lra|lia|lia|lra]|lia]|]. unfold in_band, place. lia.
Qed.
(** ... and with two outputs one length apart *)
Example C105_three_met : exists e d, three_port_f 2 2 (3 / 8) 1 1 (1 / 2) (1 / 8) [10; 15]%Z 5 1 = Ok (e, d) /\ nd_nx e = 52%nat /\ nd_ny e = 54%nat /\
  width_px_f (3 / 8) (1 / 8) = 3%Z /\ IZR (Z.of_nat 54 mod 2) / 2 = 0 /\ py_int (fl (0 - fl (fl (1 / 2) / (1 / 8)))) = (-4)%Z /\ py_int (fl (0 + fl (fl (1 / 2) / (1 / 8)))) = 4%Z /\
  off_edges 54 0 3 /\ off_edges 54 (2 * -4) 3 /\ off_edges 54 (2 * 4) 3.
Proof.
  assert (Q1 : fl (2 * 1) = 2) by (replace (2 * 1) with 2 by lra; apply (whole 2); reflexivity). assert (Q2 : fl (2 + 2) = 4) by (replace (2 + 2) with 4 by lra; apply (whole 4); reflexivity).
  assert (Q3 : fl (2 * (1 / 2)) = 1) by (replace (2 * (1 / 2)) with 1 by lra; apply (whole 1); reflexivity). assert (Q4 : fl (2 + 1) = 3) by (replace (2 + 1) with 3 by lra; apply (whole 3); reflexivity).
  assert (Q5 : fl (4 / (1 / 8)) = 32) by (replace (4 / (1 / 8)) with 32 by lra; apply (whole 32); reflexivity). assert (Q6 : fl (3 / (1 / 8)) = 24) by (replace (3 / (1 / 8)) with 24 by lra; apply (whole 24); reflexivity).
  assert (Q7 : fl (1 / 2) = 1 / 2) by (apply fl_id; replace (1 / 2) with (/ 2) by lra; apply b64_half). assert (Q8 : fl (1 / 2 / (1 / 8)) = 4) by (replace (1 / 2 / (1 / 8)) with 4 by lra; apply (whole 4); reflexivity).
  assert (Q9 : fl (0 - 4) = -4) by (replace (0 - 4) with (-4) by lra; apply (whole (-4)); reflexivity). assert (Q10 : fl (0 + 4) = 4) by (replace (0 + 4) with 4 by lra; apply (whole 4); reflexivity).
  assert (Q11 : py_int (-4) = (-4)%Z) by (apply PropsStruct.py_int_unique; split; intro; lra).
  assert (Q12 : width_px_f (3 / 8) (1 / 8) = 3%Z) by (unfold width_px_f; replace (3 / 8 / (1 / 8)) with 3 by lra; rewrite (whole 3), (py_int_IZR 3) by (reflexivity || lia); reflexivity).
  destruct (three_port_f 2 2 (3 / 8) 1 1 (1 / 2) (1 / 8) [10; 15]%Z 5 1) as [[e d]|] eqn:E; unfold three_port_f, npml_at, py_div in E; (destruct (Req_EM_T (1 / 8) 0); [lra|]); cbn [nth_error rbind] in E;
  rewrite Q1, Q2, Q3, Q4, Q5, Q6, (py_int_IZR 32), (py_int_IZR 24) in E by lia; [|discriminate].
  destruct (build_f_values _ _ _ _ _ _ _ _ _ E ltac:(discriminate) ltac:(discriminate)) as (SX & SY & _).
  exists e, d. split; [reflexivity|]. split; [lia|]. split; [lia|]. split; [exact Q12|]. split; [cbn -[IZR]; lra|]. rewrite Q7, Q8, Q9, Q10, Q11, (py_int_IZR 4) by lia. do 2 (split; [reflexivity|]).
  split; [|split]; intros s Hs; cbn [List.In] in Hs; lia.
Qed.
