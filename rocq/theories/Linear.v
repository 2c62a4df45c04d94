(** Vectors and matrices over C with explicit sizes.  A vector of length [n] is
    a function [nat -> C] of which only the arguments below [n] matter. *)
From Coq Require Import Reals Lra Lia List ZArith Arith Bool Classical ClassicalEpsilon.
From Coquelicot Require Import Coquelicot.
From Verif Require Import Base.

Definition vec := nat -> C.
Definition mat := nat -> nat -> C.
Definition rvec := nat -> R.
Definition rmat := nat -> nat -> R.

Definition veq (n : nat) (u v : vec) : Prop := forall k, (k < n)%nat -> u k = v k.
Definition meq (n : nat) (A B : mat) : Prop :=
  forall i j, (i < n)%nat -> (j < n)%nat -> A i j = B i j.

Definition mv (n : nat) (A : mat) (v : vec) : vec := fun i => csum n (fun j => (A i j * v j)%C).
Definition mm (n : nat) (A B : mat) : mat := fun i k => csum n (fun j => (A i j * B j k)%C).
Definition mT (A : mat) : mat := fun i j => A j i.
Definition mplus (A B : mat) : mat := fun i j => (A i j + B i j)%C.
Definition mscal (a : C) (A : mat) : mat := fun i j => (a * A i j)%C.
Definition mdiag (d : vec) : mat := fun i j => if Nat.eqb i j then d i else RtoC 0.
Definition mId : mat := fun i j => if Nat.eqb i j then RtoC 1 else RtoC 0.
Definition mconj (A : mat) : mat := fun i j => Cconj (A i j).
Definition vplus (u v : vec) : vec := fun i => (u i + v i)%C.
Definition vminus (u v : vec) : vec := fun i => (u i - v i)%C.
Definition vscal (a : C) (u : vec) : vec := fun i => (a * u i)%C.
Definition vmul (u v : vec) : vec := fun i => (u i * v i)%C.
Definition vconj (u : vec) : vec := fun i => Cconj (u i).
Definition dot (n : nat) (u v : vec) : C := csum n (fun k => (u k * v k)%C).
Definition vzero : vec := fun _ => RtoC 0.
Definition cvec (u : rvec) : vec := fun k => RtoC (u k).

Definition rmv (n : nat) (A : rmat) (v : rvec) : rvec := fun i => rsum n (fun j => (A i j * v j)%R).

(** Euclidean (Frobenius) norm, numpy.linalg.norm *)
Definition nrm (n : nat) (v : vec) : R := sqrt (rsum n (fun k => Cnorm2 (v k))).
Definition rnrm (n : nat) (v : rvec) : R := sqrt (rsum n (fun k => v k ^ 2)%R).

(** [A] has a two-sided inverse *)
Definition inverse_of (n : nat) (A B : mat) : Prop :=
  meq n (mm n B A) mId /\ meq n (mm n A B) mId.
Definition nonsingular (n : nat) (A : mat) : Prop := exists B, inverse_of n A B.

Lemma mv_ext n A A' u u' : meq n A A' -> veq n u u' -> veq n (mv n A u) (mv n A' u').
Proof. intros HA Hu i Hi; unfold mv; apply csum_ext; intros k Hk. rewrite HA, Hu by assumption; reflexivity. Qed.
Lemma mv_ext_v n A u u' i : veq n u u' -> mv n A u i = mv n A u' i.
Proof. intros Hu; unfold mv; apply csum_ext; intros k Hk. rewrite Hu by assumption; reflexivity. Qed.
Lemma mm_ext n A A' B B' : meq n A A' -> meq n B B' -> meq n (mm n A B) (mm n A' B').
Proof. intros HA HB i j Hi Hj; unfold mm; apply csum_ext; intros k Hk. rewrite HA, HB by assumption; reflexivity. Qed.
Lemma veq_refl n u : veq n u u. Proof. intros k _; reflexivity. Qed.
Lemma veq_sym n u v : veq n u v -> veq n v u. Proof. intros H k Hk; rewrite H by assumption; reflexivity. Qed.
Lemma veq_trans n u v w : veq n u v -> veq n v w -> veq n u w.
Proof. intros H1 H2 k Hk; rewrite H1, H2 by assumption; reflexivity. Qed.
Lemma meq_refl n A : meq n A A. Proof. intros i j _ _; reflexivity. Qed.
Lemma meq_sym n A B : meq n A B -> meq n B A. Proof. intros H i j Hi Hj; rewrite H by assumption; reflexivity. Qed.
Lemma meq_trans n A B D : meq n A B -> meq n B D -> meq n A D.
Proof. intros H1 H2 i j Hi Hj; rewrite H1, H2 by assumption; reflexivity. Qed.

Lemma mv_mm n A B v i : mv n (mm n A B) v i = mv n A (mv n B v) i.
Proof.
  unfold mv, mm.
  rewrite (csum_ext n _ (fun j => csum n (fun k => (A i k * (B k j * v j))%C))).
  - rewrite csum_swap. apply csum_ext; intros k Hk. rewrite csum_scal; reflexivity.
  - intros j Hj. rewrite <- csum_scal_r. apply csum_ext; intros; ring.
Qed.
Lemma mm_assoc n A B D i j : mm n (mm n A B) D i j = mm n A (mm n B D) i j.
Proof.
  unfold mm.
  rewrite (csum_ext n _ (fun k => csum n (fun l => (A i l * (B l k * D k j))%C))).
  - rewrite csum_swap. apply csum_ext; intros k Hk. rewrite csum_scal; reflexivity.
  - intros k Hk. rewrite <- csum_scal_r. apply csum_ext; intros; ring.
Qed.
Lemma mv_mplus n A B v i : mv n (mplus A B) v i = (mv n A v i + mv n B v i)%C.
Proof. unfold mv, mplus. rewrite <- csum_plus. apply csum_ext; intros; ring. Qed.
Lemma mv_mscal n a A v i : mv n (mscal a A) v i = (a * mv n A v i)%C.
Proof. unfold mv, mscal. rewrite <- csum_scal. apply csum_ext; intros; ring. Qed.
Lemma mv_vplus n A u v i : mv n A (vplus u v) i = (mv n A u i + mv n A v i)%C.
Proof. unfold mv, vplus. rewrite <- csum_plus. apply csum_ext; intros; ring. Qed.
Lemma mv_vminus n A u v i : mv n A (vminus u v) i = (mv n A u i - mv n A v i)%C.
Proof. unfold mv, vminus. rewrite <- csum_minus. apply csum_ext; intros; ring. Qed.
Lemma mv_vscal n A a v i : mv n A (vscal a v) i = (a * mv n A v i)%C.
Proof. unfold mv, vscal. rewrite <- csum_scal. apply csum_ext; intros; ring. Qed.
Lemma mv_diag n d v i : (i < n)%nat -> mv n (mdiag d) v i = (d i * v i)%C.
Proof.
  intro Hi. unfold mv, mdiag. rewrite (csum_single n i) by
    (first [assumption|intros k Hk Hne; destruct (Nat.eqb_spec i k); [congruence|ring]]).
  rewrite Nat.eqb_refl; reflexivity.
Qed.
Lemma mv_Id n v i : (i < n)%nat -> mv n mId v i = v i.
Proof.
  intro Hi. unfold mv, mId. rewrite (csum_single n i) by
    (first [assumption|intros k Hk Hne; destruct (Nat.eqb_spec i k); [congruence|ring]]).
  rewrite Nat.eqb_refl; ring.
Qed.
Lemma mm_diag_l n d A i j : (i < n)%nat -> mm n (mdiag d) A i j = (d i * A i j)%C.
Proof.
  intro Hi. unfold mm, mdiag. rewrite (csum_single n i) by
    (first [assumption|intros k Hk Hne; destruct (Nat.eqb_spec i k); [congruence|ring]]).
  rewrite Nat.eqb_refl; reflexivity.
Qed.
Lemma mm_diag_r n d A i j : (j < n)%nat -> mm n A (mdiag d) i j = (A i j * d j)%C.
Proof.
  intro Hj. unfold mm, mdiag. rewrite (csum_single n j) by
    (first [assumption|intros k Hk Hne; destruct (Nat.eqb_spec k j); [congruence|ring]]).
  rewrite Nat.eqb_refl; reflexivity.
Qed.
Lemma mm_Id_l n A i j : (i < n)%nat -> mm n mId A i j = A i j.
Proof. intro Hi. change mId with (mdiag (fun _ => RtoC 1)). rewrite mm_diag_l by assumption; ring. Qed.
Lemma mm_Id_r n A i j : (j < n)%nat -> mm n A mId i j = A i j.
Proof. intro Hi. change mId with (mdiag (fun _ => RtoC 1)). rewrite mm_diag_r by assumption; ring. Qed.
Lemma mT_mm n A B i j : mT (mm n A B) i j = mm n (mT B) (mT A) i j.
Proof. unfold mT, mm. apply csum_ext; intros; ring. Qed.
Lemma mconj_mm n A B i j : mconj (mm n A B) i j = mm n (mconj A) (mconj B) i j.
Proof. unfold mconj, mm. rewrite Cconj_csum. apply csum_ext; intros; apply Cconj_mult. Qed.
Lemma mv_conj n A v i : Cconj (mv n A v i) = mv n (mconj A) (vconj v) i.
Proof. unfold mv, mconj, vconj. rewrite Cconj_csum. apply csum_ext; intros; apply Cconj_mult. Qed.
Lemma mv_zero n A i : mv n A vzero i = RtoC 0.
Proof. unfold mv, vzero. apply csum_0; intros; ring. Qed.

(** u . (A v) = (A^T u) . v *)
Lemma dot_mT n A u v : dot n u (mv n A v) = dot n (mv n (mT A) u) v.
Proof.
  unfold dot, mv, mT.
  rewrite (csum_ext n _ (fun k => csum n (fun j => (u k * A k j * v j)%C)))
    by (intros; rewrite <- csum_scal; apply csum_ext; intros; ring).
  rewrite csum_swap. apply csum_ext; intros j Hj.
  rewrite <- csum_scal_r. apply csum_ext; intros; ring.
Qed.
Lemma dot_comm n u v : dot n u v = dot n v u.
Proof. unfold dot. apply csum_ext; intros; ring. Qed.
Lemma dot_ext n u u' v v' : veq n u u' -> veq n v v' -> dot n u v = dot n u' v'.
Proof. intros H1 H2; unfold dot; apply csum_ext; intros; rewrite H1, H2 by assumption; reflexivity. Qed.
Lemma dot_vplus_r n u v w : dot n u (vplus v w) = (dot n u v + dot n u w)%C.
Proof. unfold dot, vplus. rewrite <- csum_plus. apply csum_ext; intros; ring. Qed.

(* ------------------------------------------------------------------ *)
(** ** Norms *)

Lemma nrm_ge0 n v : (0 <= nrm n v)%R. Proof. apply sqrt_pos. Qed.
Lemma nrm_ext n u v : veq n u v -> nrm n u = nrm n v.
Proof. intro H; unfold nrm; f_equal; apply rsum_ext; intros; rewrite H by assumption; reflexivity. Qed.
Lemma nrm_eq0 n v : nrm n v = 0%R -> forall k, (k < n)%nat -> v k = RtoC 0.
Proof.
  unfold nrm; intros H k Hk. apply sqrt_eq_0 in H.
  - apply Cnorm2_eq0. apply (rsum_eq0 n (fun k => Cnorm2 (v k))); auto. intros; apply Cnorm2_ge0.
  - apply rsum_ge0; intros; apply Cnorm2_ge0.
Qed.
Lemma nrm_zero n v : (forall k, (k < n)%nat -> v k = RtoC 0) -> nrm n v = 0%R.
Proof.
  intro H; unfold nrm. rewrite rsum_0; [apply sqrt_0|]. intros k Hk; rewrite H by assumption. apply Cnorm2_0.
Qed.
Lemma rnrm_eq0 n v : rnrm n v = 0%R -> forall k, (k < n)%nat -> v k = 0%R.
Proof.
  unfold rnrm; intros H k Hk. apply sqrt_eq_0 in H.
  - assert (v k ^ 2 = 0)%R by (apply (rsum_eq0 n (fun k => v k ^ 2)%R); auto; intros; apply pow2_ge_0). nra.
  - apply rsum_ge0; intros; apply pow2_ge_0.
Qed.
Lemma rnrm_zero n v : (forall k, (k < n)%nat -> v k = 0%R) -> rnrm n v = 0%R.
Proof.
  intro H; unfold rnrm. rewrite rsum_0; [apply sqrt_0|]. intros k Hk; rewrite H by assumption. ring.
Qed.
Lemma rnrm_ge0 n v : (0 <= rnrm n v)%R. Proof. apply sqrt_pos. Qed.
Lemma rnrm_comp_le n v k : (k < n)%nat -> (Rabs (v k) <= rnrm n v)%R.
Proof.
  intro Hk. unfold rnrm. rewrite <- sqrt_Rsqr_abs. apply sqrt_le_1_alt.
  replace (Rsqr (v k)) with (v k ^ 2)%R by (unfold Rsqr; ring).
  apply (rsum_term_le n (fun k => v k ^ 2)%R); [intros; apply pow2_ge_0|assumption].
Qed.
Lemma nrm_comp_le n v k : (k < n)%nat -> (Cmod (v k) <= nrm n v)%R.
Proof.
  intro Hk. unfold nrm, Cmod. apply sqrt_le_1_alt.
  apply (rsum_term_le n (fun k => Cnorm2 (v k))); [intros; apply Cnorm2_ge0|assumption].
Qed.

(* ------------------------------------------------------------------ *)
(** ** Inverses *)

Lemma left_inverse_unique n A x y :
  nonsingular n A -> veq n (mv n A x) (mv n A y) -> veq n x y.
Proof.
  intros [B [HB _]] H k Hk.
  assert (E: forall v, mv n B (mv n A v) k = v k).
  { intro v. rewrite <- mv_mm. rewrite (mv_ext n _ mId v v HB (veq_refl n v)) by assumption.
    apply mv_Id; assumption. }
  rewrite <- (E x), <- (E y). apply mv_ext_v; assumption.
Qed.
Lemma inverse_solves n A B b : inverse_of n A B -> veq n (mv n A (mv n B b)) b.
Proof.
  intros [_ HB] k Hk. rewrite <- mv_mm.
  rewrite (mv_ext n _ mId b b HB (veq_refl n b)) by assumption. apply mv_Id; assumption.
Qed.
Lemma inverse_of_mT n A B : inverse_of n A B -> inverse_of n (mT A) (mT B).
Proof.
  intros [H1 H2]; split; intros i j Hi Hj.
  - rewrite <- mT_mm. unfold mT at 1. rewrite H2 by assumption. unfold mId. rewrite Nat.eqb_sym; reflexivity.
  - rewrite <- mT_mm. unfold mT at 1. rewrite H1 by assumption. unfold mId. rewrite Nat.eqb_sym; reflexivity.
Qed.
Lemma nonsingular_mT n A : nonsingular n A -> nonsingular n (mT A).
Proof. intros [B HB]; exists (mT B); apply inverse_of_mT; assumption. Qed.
Lemma inverse_of_ext n A A' B : meq n A A' -> inverse_of n A B -> inverse_of n A' B.
Proof.
  intros H [H1 H2]; split; intros i j Hi Hj.
  - rewrite <- (mm_ext n B B A A' (meq_refl n B) H i j) by assumption. apply H1; assumption.
  - rewrite <- (mm_ext n A A' B B H (meq_refl n B) i j) by assumption. apply H2; assumption.
Qed.
Lemma nonsingular_ext n A A' : meq n A A' -> nonsingular n A -> nonsingular n A'.
Proof. intros H [B HB]; exists B; apply (inverse_of_ext n A); assumption. Qed.

(** Trivial kernel implies surjective (Gaussian elimination on the last column). *)
Lemma injective_surjective n : forall A : mat,
  (forall x, (forall i, (i < n)%nat -> mv n A x i = RtoC 0) -> forall j, (j < n)%nat -> x j = RtoC 0) ->
  forall b : vec, exists x, veq n (mv n A x) b.
Proof.
  induction n as [|n IH]; intros A Hinj b.
  - exists vzero. intros k Hk; lia.
  - destruct (classic (exists p, (p < S n)%nat /\ A p n <> RtoC 0)) as [[p [Hp HA]]|Hno].
    + set (sig := fun i => if Nat.ltb i p then i else S i).
      set (A' := fun i j => (A (sig i) j - A (sig i) n / A p n * A p j)%C).
      set (b' := fun i => (b (sig i) - A (sig i) n / A p n * b p)%C).
      assert (sig_lt: forall i, (i < n)%nat -> (sig i < S n)%nat).
      { intros i Hi; unfold sig; destruct (Nat.ltb_spec i p); lia. }
      assert (rowA': forall y i, mv n A' y i =
                (mv n A y (sig i) - A (sig i) n / A p n * mv n A y p)%C).
      { intros y i. unfold mv, A'. rewrite <- csum_scal, <- csum_minus. apply csum_ext; intros; ring. }
      assert (row: forall x i, mv (S n) A x i = (mv n A x i + A i n * x n)%C) by reflexivity.
      assert (Hrows: forall i, (i < S n)%nat -> i = p \/ exists i', (i' < n)%nat /\ i = sig i').
      { intros i Hi. destruct (Nat.lt_trichotomy i p) as [H|[H|H]].
        - right; exists i; split; [lia|]. unfold sig. destruct (Nat.ltb_spec i p); lia.
        - left; assumption.
        - right; exists (i-1)%nat; split; [lia|]. unfold sig. destruct (Nat.ltb_spec (i-1) p); lia. }
      assert (ext: forall x y i, (forall j, (j < n)%nat -> x j = y j) -> mv n A x i = mv n A y i).
      { intros x y i H; apply mv_ext_v; exact H. }
      destruct (IH A') with (b := b') as [y Hy].
      { intros y Hy j Hj.
        set (x := fun j => if Nat.eqb j n then (- (mv n A y p) / A p n)%C else y j).
        assert (Hx: forall j, (j < n)%nat -> x j = y j).
        { intros j' Hj'; unfold x; destruct (Nat.eqb_spec j' n); [lia|reflexivity]. }
        assert (Hxn: x n = (- (mv n A y p) / A p n)%C) by (unfold x; rewrite Nat.eqb_refl; reflexivity).
        rewrite <- (Hx j Hj). apply (Hinj x); [|lia].
        intros i Hi. rewrite row, (ext x y), Hxn by assumption.
        destruct (Hrows i Hi) as [->|[i' [Hi' ->]]].
        - field; assumption.
        - specialize (Hy i' Hi'). rewrite rowA' in Hy. rewrite <- Hy. field; assumption. }
      exists (fun j => if Nat.eqb j n then ((b p - mv n A y p) / A p n)%C else y j).
      set (x := fun j => if Nat.eqb j n then ((b p - mv n A y p) / A p n)%C else y j).
      assert (Hx: forall j, (j < n)%nat -> x j = y j).
      { intros j' Hj'; unfold x; destruct (Nat.eqb_spec j' n); [lia|reflexivity]. }
      assert (Hxn: x n = ((b p - mv n A y p) / A p n)%C) by (unfold x; rewrite Nat.eqb_refl; reflexivity).
      intros i Hi. rewrite row, (ext x y), Hxn by assumption.
      destruct (Hrows i Hi) as [->|[i' [Hi' ->]]].
      * field; assumption.
      * specialize (Hy i' Hi'). rewrite rowA' in Hy. unfold b' in Hy.
        replace (b (sig i')) with (b (sig i') - A (sig i') n / A p n * b p + A (sig i') n / A p n * b p)%C by ring.
        rewrite <- Hy. field; assumption.
    + exfalso.
      assert (E: (fun j => if Nat.eqb j n then RtoC 1 else RtoC 0) n = RtoC 0).
      { apply (Hinj (fun j => if Nat.eqb j n then RtoC 1 else RtoC 0)); [|lia].
        intros i Hi. unfold mv; simpl. rewrite Nat.eqb_refl.
        rewrite csum_0.
        - destruct (Ceq_dec (A i n) 0) as [->|Hne]; [ring|]. exfalso; apply Hno; exists i; auto.
        - intros k Hk; destruct (Nat.eqb_spec k n); [lia|ring]. }
      simpl in E. rewrite Nat.eqb_refl in E. apply RtoC_inj in E. lra.
Qed.

Lemma finite_choice {T : Type} {d : T} n (P : nat -> (nat -> T) -> Prop) :
  (forall k, (k < n)%nat -> exists x, P k x) ->
  exists X : nat -> (nat -> T), forall k, (k < n)%nat -> P k (X k).
Proof.
  induction n; intro H.
  - exists (fun _ _ => d). intros k Hk; lia.
  - destruct IHn as [X HX]; [intros; apply H; lia|].
    destruct (H n) as [x Hx]; [lia|].
    exists (fun k => if Nat.eqb k n then x else X k). intros k Hk.
    destruct (Nat.eqb_spec k n) as [->|]; [assumption|apply HX; lia].
Qed.

Lemma injective_right_inverse n A :
  (forall x, (forall i, (i < n)%nat -> mv n A x i = RtoC 0) -> forall j, (j < n)%nat -> x j = RtoC 0) ->
  exists B, meq n (mm n A B) mId.
Proof.
  intro Hinj.
  assert (H: forall k, (k < n)%nat -> exists x, veq n (mv n A x) (fun i => mId i k)).
  { intros k _; apply injective_surjective; assumption. }
  destruct (finite_choice (d := RtoC 0) n _ H) as [X HX].
  exists (fun j k => X k j). intros i k Hi Hk. exact (HX k Hk i Hi).
Qed.

Lemma injective_nonsingular n A :
  (forall x, (forall i, (i < n)%nat -> mv n A x i = RtoC 0) -> forall j, (j < n)%nat -> x j = RtoC 0) ->
  nonsingular n A.
Proof.
  intro Hinj. destruct (injective_right_inverse n A Hinj) as [B HB].
  assert (HB': forall v i, (i < n)%nat -> mv n A (mv n B v) i = v i).
  { intros v i Hi. rewrite <- mv_mm. rewrite (mv_ext n _ mId v v HB (veq_refl n v)) by assumption.
    apply mv_Id; assumption. }
  destruct (injective_right_inverse n B) as [Z HZ].
  { intros y Hy j Hj. rewrite <- (HB' y j Hj).
    rewrite (mv_ext_v n A (mv n B y) vzero). apply mv_zero. intros k Hk; apply Hy; assumption. }
  exists B; split; [|assumption].
  (* A = A (B Z) = Z *)
  assert (HAZ: meq n A Z).
  { intros i j Hi Hj. rewrite <- (mm_Id_r n A i j Hj).
    rewrite (mm_ext n A A mId (mm n B Z)) by
      (try assumption; try apply meq_refl; apply meq_sym; assumption).
    rewrite <- mm_assoc. rewrite (mm_ext n _ mId Z Z HB (meq_refl n Z)) by assumption.
    apply mm_Id_l; assumption. }
  intros i j Hi Hj. rewrite (mm_ext n B B A Z (meq_refl n B) HAZ) by assumption. apply HZ; assumption.
Qed.

Lemma nonsingular_injective n A x :
  nonsingular n A -> (forall i, (i < n)%nat -> mv n A x i = RtoC 0) -> forall j, (j < n)%nat -> x j = RtoC 0.
Proof.
  intros HA H j Hj. apply (left_inverse_unique n A x vzero HA); [|assumption].
  intros k Hk; rewrite H, mv_zero by assumption; reflexivity.
Qed.

(** Strict row diagonal dominance. *)
Lemma diag_dominant_nonsingular n A :
  (forall i, (i < n)%nat ->
     (rsum n (fun j => if Nat.eqb j i then 0 else Cmod (A i j)) < Cmod (A i i))%R) ->
  nonsingular n A.
Proof.
  intro Hdom. apply injective_nonsingular. intros x Hx.
  (* index of the largest component *)
  assert (Hmax: forall m, (0 < m)%nat -> exists p, (p < m)%nat /\ forall j, (j < m)%nat -> (Cmod (x j) <= Cmod (x p))%R).
  { induction m; intro Hm; [lia|]. destruct m.
    - exists O; split; [lia|]. intros j Hj; replace j with O by lia; lra.
    - destruct IHm as [p [Hp Hpm]]; [lia|].
      destruct (Rle_dec (Cmod (x (S m))) (Cmod (x p))).
      + exists p; split; [lia|]. intros j Hj. destruct (Nat.eq_dec j (S m)) as [->|]; [assumption|apply Hpm; lia].
      + exists (S m); split; [lia|]. intros j Hj. destruct (Nat.eq_dec j (S m)) as [->|]; [lra|].
        assert (Cmod (x j) <= Cmod (x p))%R by (apply Hpm; lia). lra. }
  intros j Hj. destruct (Hmax n) as [p [Hp Hpm]]; [lia|].
  assert (Hp0: Cmod (x p) = 0%R).
  { destruct (Req_dec (Cmod (x p)) 0) as [|Hne]; [assumption|exfalso].
    assert (Hpos: (0 < Cmod (x p))%R) by (assert (0 <= Cmod (x p))%R by apply Cmod_ge_0; lra).
    assert (E: (A p p * x p)%C = (- csum n (fun j => if Nat.eqb j p then RtoC 0 else (A p j * x j)%C))%C).
    { specialize (Hx p Hp). unfold mv in Hx.
      rewrite (csum_ext n _ (fun j => (if Nat.eqb j p then (A p j * x j)%C else RtoC 0) +
                                       (if Nat.eqb j p then RtoC 0 else (A p j * x j)%C))%C) in Hx
        by (intros k _; destruct (Nat.eqb k p); ring).
      rewrite csum_plus, (csum_delta n p (fun j => (A p j * x j)%C)) in Hx by assumption.
      set (s := csum n _) in *.
      replace (A p p * x p)%C with (A p p * x p + s - s)%C by ring. rewrite Hx; ring. }
    apply (f_equal Cmod) in E. rewrite Cmod_mult, Cmod_opp in E.
    assert (Hle: (Cmod (csum n (fun j => if Nat.eqb j p then RtoC 0 else (A p j * x j)%C)) <=
                  rsum n (fun j => if Nat.eqb j p then 0 else Cmod (A p j)) * Cmod (x p))%R).
    { eapply Rle_trans; [apply csum_mod|]. rewrite <- rsum_scal_r. apply rsum_le. intros k Hk.
      destruct (Nat.eqb_spec k p); [rewrite Cmod_0; lra|]. rewrite Cmod_mult.
      apply Rmult_le_compat_l; [apply Cmod_ge_0|apply Hpm; assumption]. }
    specialize (Hdom p Hp). nra. }
  apply Cmod_eq_0. assert (Cmod (x j) <= Cmod (x p))%R by (apply Hpm; assumption).
  assert (0 <= Cmod (x j))%R by apply Cmod_ge_0. lra.
Qed.

(** An exact solver exists (used only to show that hypotheses can be met). *)
Definition exact_solver (n : nat) (A : mat) (b : vec) : vec :=
  match excluded_middle_informative (nonsingular n A) with
  | left H => mv n (proj1_sig (constructive_indefinite_description _ H)) b
  | right _ => vzero
  end.
Lemma exact_solver_correct n A b : nonsingular n A -> veq n (mv n A (exact_solver n A b)) b.
Proof.
  intro H. unfold exact_solver. destruct (excluded_middle_informative (nonsingular n A)) as [H'|]; [|contradiction].
  destruct (constructive_indefinite_description _ H') as [B HB]; simpl. apply inverse_solves; assumption.
Qed.
