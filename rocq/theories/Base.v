(** Shared vocabulary of the model: python exceptions as values, the state and
    exception monad in which mutating methods are written, IEEE quotients,
    finite sums over R and C, and facts about complex conjugation missing from
    Coquelicot.  Nothing in this file models a line of /repo by itself. *)
From Coq Require Import Reals Lra Lia List ZArith Arith Bool.
From Coquelicot Require Import Coquelicot.
Import ListNotations.

(* ------------------------------------------------------------------ *)
(** * Exceptions *)

Inductive exn : Set :=
| ValueError | AssertionError | TypeError | NameError | AttributeError
| IndexError | NotImplementedError | UnboundLocalError | KeyError | ZeroDivisionError
| NotRepresentable. (* not a python exception: inf or nan would enter an array; the model stops *)

Inductive res (A : Type) : Type :=
| Ok (a : A)
| Raise (e : exn).
Arguments Ok {A} a.
Arguments Raise {A} e.

Definition rbind {A B} (x : res A) (f : A -> res B) : res B :=
  match x with Ok a => f a | Raise e => Raise e end.

(** A mutating method: takes the object, returns the object as it is left
    (also when an exception is raised) and the outcome. *)
Definition St (S A : Type) : Type := S -> S * res A.

Definition ret {S A} (a : A) : St S A := fun s => (s, Ok a).
Definition raise {S A} (e : exn) : St S A := fun s => (s, Raise e).
Definition bind {S A B} (m : St S A) (f : A -> St S B) : St S B :=
  fun s => match m s with
           | (s', Ok a) => f a s'
           | (s', Raise e) => (s', Raise e)
           end.
Definition getS {S} : St S S := fun s => (s, Ok s).
Definition putS {S} (s : S) : St S unit := fun _ => (s, Ok tt).
Definition modS {S} (f : S -> S) : St S unit := fun s => (f s, Ok tt).
Definition lift {S A} (r : res A) : St S A := fun s => (s, r).

Notation "x <- m ;; k" := (bind m (fun x => k))
  (at level 61, m at next level, right associativity).
Notation "' p <- m ;; k" := (bind m (fun x => let p := x in k))
  (at level 61, p pattern, m at next level, right associativity).
Notation "m ;;; k" := (bind m (fun _ => k)) (at level 61, right associativity).

(* ------------------------------------------------------------------ *)
(** * IEEE quotients (only where control flow depends on inf/nan) *)

Inductive xr : Type :=
| Fin (r : R)
| PInf
| NaN.

(** [a/b] for a>=0, b>=0 (both are norms wherever this is used). *)
Definition xdiv (a b : R) : xr :=
  if Req_EM_T b 0 then (if Req_EM_T a 0 then NaN else PInf) else Fin (a / b)%R.

(** IEEE comparisons with a finite number: false on nan. *)
Definition xlt (x : xr) (t : R) : bool :=
  match x with Fin r => if Rlt_dec r t then true else false | PInf => false | NaN => false end.
Definition xgt (x : xr) (t : R) : bool :=
  match x with Fin r => if Rlt_dec t r then true else false | PInf => true | NaN => false end.

(* ------------------------------------------------------------------ *)
(** * Finite sums *)

Fixpoint rsum (n : nat) (f : nat -> R) : R :=
  match n with O => 0%R | S k => (rsum k f + f k)%R end.

Fixpoint csum (n : nat) (f : nat -> C) : C :=
  match n with O => RtoC 0 | S k => (csum k f + f k)%C end.

(** ** Complex numbers *)

Lemma C_ext (x y : C) : Re x = Re y -> Im x = Im y -> x = y.
Proof. destruct x, y; simpl; intros -> ->; reflexivity. Qed.

Lemma Re_plus x y : Re (x + y)%C = (Re x + Re y)%R. Proof. reflexivity. Qed.
Lemma Im_plus x y : Im (x + y)%C = (Im x + Im y)%R. Proof. reflexivity. Qed.
Lemma Re_opp x : Re (- x)%C = (- Re x)%R. Proof. reflexivity. Qed.
Lemma Im_opp x : Im (- x)%C = (- Im x)%R. Proof. reflexivity. Qed.
Lemma Re_minus x y : Re (x - y)%C = (Re x - Re y)%R. Proof. reflexivity. Qed.
Lemma Im_minus x y : Im (x - y)%C = (Im x - Im y)%R. Proof. reflexivity. Qed.
Lemma Re_mult x y : Re (x * y)%C = (Re x * Re y - Im x * Im y)%R. Proof. reflexivity. Qed.
Lemma Im_mult x y : Im (x * y)%C = (Re x * Im y + Im x * Re y)%R. Proof. reflexivity. Qed.
Lemma Re_RtoC r : Re (RtoC r) = r. Proof. reflexivity. Qed.
Lemma Im_RtoC r : Im (RtoC r) = 0%R. Proof. reflexivity. Qed.
Lemma Re_Ci : Re Ci = 0%R. Proof. reflexivity. Qed.
Lemma Im_Ci : Im Ci = 1%R. Proof. reflexivity. Qed.
Lemma Re_conj x : Re (Cconj x) = Re x. Proof. reflexivity. Qed.
Lemma Im_conj x : Im (Cconj x) = (- Im x)%R. Proof. reflexivity. Qed.
Lemma Re_RtoC_mult r z : Re (RtoC r * z)%C = (r * Re z)%R.
Proof. rewrite Re_mult, Re_RtoC, Im_RtoC; ring. Qed.
Lemma Im_RtoC_mult r z : Im (RtoC r * z)%C = (r * Im z)%R.
Proof. rewrite Im_mult, Re_RtoC, Im_RtoC; ring. Qed.

#[export] Hint Rewrite Re_plus Im_plus Re_opp Im_opp Re_minus Im_minus Re_mult Im_mult
  Re_RtoC Im_RtoC Re_Ci Im_Ci Re_conj Im_conj : reim.

(** Polynomial identities between complex numbers, by components. *)
Ltac cring := apply C_ext; autorewrite with reim; try ring.

Lemma Cconj_plus x y : Cconj (x + y)%C = (Cconj x + Cconj y)%C. Proof. cring. Qed.
Lemma Cconj_minus x y : Cconj (x - y)%C = (Cconj x - Cconj y)%C. Proof. cring. Qed.
Lemma Cconj_opp x : Cconj (- x)%C = (- Cconj x)%C. Proof. cring. Qed.
Lemma Cconj_mult x y : Cconj (x * y)%C = (Cconj x * Cconj y)%C. Proof. cring. Qed.
Lemma Cconj_RtoC r : Cconj (RtoC r) = RtoC r. Proof. cring. Qed.
Lemma Cconj_invol x : Cconj (Cconj x) = x. Proof. cring. Qed.
Lemma Cconj_Ci : Cconj Ci = (- Ci)%C. Proof. cring. Qed.
Lemma Cconj_inv x : Cconj (/ x)%C = (/ Cconj x)%C.
Proof.
  destruct x as [a b]; unfold Cconj, Cinv; simpl.
  replace (- b * (- b * 1))%R with (b * (b * 1))%R by ring.
  f_equal. unfold Rdiv. ring.
Qed.
Lemma Cconj_div x y : Cconj (x / y)%C = (Cconj x / Cconj y)%C.
Proof. unfold Cdiv; rewrite Cconj_mult, Cconj_inv; reflexivity. Qed.
Lemma Cmod_conj x : Cmod (Cconj x) = Cmod x.
Proof. unfold Cmod, Cconj; simpl; f_equal; ring. Qed.
Lemma Ci_sqr : (Ci * Ci)%C = (- RtoC 1)%C. Proof. cring. Qed.
Lemma Ci_neq0 : Ci <> RtoC 0.
Proof. intro H; apply (f_equal Im) in H; simpl in H; lra. Qed.
Lemma Cinv_Ci : (/ Ci)%C = (- Ci)%C.
Proof. apply C_ext; unfold Re, Im; simpl; field. Qed.
Lemma RtoC_neq0 r : r <> 0%R -> RtoC r <> RtoC 0.
Proof. intros H E; apply RtoC_inj in E; auto. Qed.

(** squared modulus *)
Definition Cnorm2 (z : C) : R := (Re z ^ 2 + Im z ^ 2)%R.
Lemma Cmod2 z : (Cmod z ^ 2 = Cnorm2 z)%R.
Proof.
  unfold Cmod, Cnorm2, Re, Im. rewrite pow2_sqrt; [reflexivity|].
  apply Rplus_le_le_0_compat; apply pow2_ge_0.
Qed.
Lemma Cmult_conj_r z : (z * Cconj z)%C = RtoC (Cnorm2 z).
Proof. unfold Cnorm2; cring. Qed.
Lemma Cnorm2_ge0 z : (0 <= Cnorm2 z)%R.
Proof. unfold Cnorm2; apply Rplus_le_le_0_compat; apply pow2_ge_0. Qed.
Lemma Cnorm2_0 : Cnorm2 (RtoC 0) = 0%R.
Proof. unfold Cnorm2; simpl; ring. Qed.
Lemma Cnorm2_mult x y : Cnorm2 (x * y)%C = (Cnorm2 x * Cnorm2 y)%R.
Proof. unfold Cnorm2; autorewrite with reim; ring. Qed.
Lemma Cnorm2_eq0 z : Cnorm2 z = 0%R -> z = RtoC 0.
Proof.
  unfold Cnorm2; intro H. apply C_ext; simpl; nra.
Qed.
Lemma Cmod_Re_le z : (Rabs (Re z) <= Cmod z)%R.
Proof. eapply Rle_trans; [apply Rmax_l|apply Rmax_Cmod]. Qed.
Lemma Cmod_Im_le z : (Rabs (Im z) <= Cmod z)%R.
Proof. eapply Rle_trans; [apply Rmax_r|apply Rmax_Cmod]. Qed.
Lemma Cmod_le_ReIm z : (Cmod z <= Rabs (Re z) + Rabs (Im z))%R.
Proof.
  assert (E: z = (RtoC (Re z) + RtoC (Im z) * Ci)%C) by cring.
  rewrite E at 1. eapply Rle_trans; [apply Cmod_triangle|].
  rewrite Cmod_mult, !Cmod_R.
  assert (Cmod Ci = 1%R) as ->.
  { unfold Cmod; simpl. replace (0 * (0 * 1) + 1 * (1 * 1))%R with 1%R by ring. apply sqrt_1. }
  lra.
Qed.
Lemma Cmult_integral x y : (x * y)%C = RtoC 0 -> x = RtoC 0 \/ y = RtoC 0.
Proof.
  intro H. destruct (Ceq_dec x 0) as [->|Hx]; [left; reflexivity|right].
  replace y with (/ x * (x * y))%C by (field; exact Hx).
  rewrite H; ring.
Qed.
Lemma RtoC_pow x n : RtoC (x ^ n) = pow_n (RtoC x) n.
Proof. induction n; simpl; [reflexivity|]. rewrite RtoC_mult, IHn. reflexivity. Qed.

(** ** Sum lemmas *)

Lemma rsum_ext n f g : (forall k, (k < n)%nat -> f k = g k) -> rsum n f = rsum n g.
Proof.
  induction n; simpl; intro H; [reflexivity|].
  rewrite IHn by (intros; apply H; lia). rewrite H by lia. reflexivity.
Qed.
Lemma csum_ext n f g : (forall k, (k < n)%nat -> f k = g k) -> csum n f = csum n g.
Proof.
  induction n; simpl; intro H; [reflexivity|].
  rewrite IHn by (intros; apply H; lia). rewrite H by lia. reflexivity.
Qed.
Lemma rsum_0 n f : (forall k, (k < n)%nat -> f k = 0%R) -> rsum n f = 0%R.
Proof. induction n; simpl; intro H; [reflexivity|]. rewrite IHn, H by (intros; try apply H; lia). ring. Qed.
Lemma csum_0 n f : (forall k, (k < n)%nat -> f k = RtoC 0) -> csum n f = RtoC 0.
Proof. induction n; simpl; intro H; [reflexivity|]. rewrite IHn, H by (intros; try apply H; lia). ring. Qed.
Lemma rsum_plus n f g : rsum n (fun k => f k + g k)%R = (rsum n f + rsum n g)%R.
Proof. induction n; simpl; [ring|]. rewrite IHn; ring. Qed.
Lemma csum_plus n f g : csum n (fun k => f k + g k)%C = (csum n f + csum n g)%C.
Proof. induction n; simpl; [ring|]. rewrite IHn; ring. Qed.
Lemma rsum_minus n f g : rsum n (fun k => f k - g k)%R = (rsum n f - rsum n g)%R.
Proof. induction n; simpl; [ring|]. rewrite IHn; ring. Qed.
Lemma csum_minus n f g : csum n (fun k => f k - g k)%C = (csum n f - csum n g)%C.
Proof. induction n; simpl; [ring|]. rewrite IHn; ring. Qed.
Lemma rsum_opp n f : rsum n (fun k => - f k)%R = (- rsum n f)%R.
Proof. induction n; simpl; [ring|]. rewrite IHn; ring. Qed.
Lemma csum_opp n f : csum n (fun k => - f k)%C = (- csum n f)%C.
Proof. induction n; simpl; [ring|]. rewrite IHn; ring. Qed.
Lemma rsum_scal n a f : rsum n (fun k => a * f k)%R = (a * rsum n f)%R.
Proof. induction n; simpl; [ring|]. rewrite IHn; ring. Qed.
Lemma csum_scal n a f : csum n (fun k => a * f k)%C = (a * csum n f)%C.
Proof. induction n; simpl; [ring|]. rewrite IHn; ring. Qed.
Lemma rsum_scal_r n a f : rsum n (fun k => f k * a)%R = (rsum n f * a)%R.
Proof. induction n; simpl; [ring|]. rewrite IHn; ring. Qed.
Lemma csum_scal_r n a f : csum n (fun k => f k * a)%C = (csum n f * a)%C.
Proof. induction n; simpl; [ring|]. rewrite IHn; ring. Qed.
Lemma rsum_const n a : rsum n (fun _ => a) = (INR n * a)%R.
Proof. induction n; [simpl; ring|]. rewrite S_INR; simpl. rewrite IHn; ring. Qed.
Lemma rsum_swap n m f :
  rsum n (fun i => rsum m (fun j => f i j)) = rsum m (fun j => rsum n (fun i => f i j)).
Proof.
  induction n; simpl.
  - symmetry; apply rsum_0; reflexivity.
  - rewrite IHn, <- rsum_plus. reflexivity.
Qed.
Lemma csum_swap n m f :
  csum n (fun i => csum m (fun j => f i j)) = csum m (fun j => csum n (fun i => f i j)).
Proof.
  induction n; simpl.
  - symmetry; apply csum_0; reflexivity.
  - rewrite IHn, <- csum_plus. reflexivity.
Qed.
Lemma rsum_delta n p f :
  (p < n)%nat -> rsum n (fun k => if Nat.eqb k p then f k else 0%R) = f p.
Proof.
  induction n; intro H; [lia|]. simpl.
  destruct (Nat.eqb_spec n p) as [->|Hn].
  - rewrite rsum_0; [ring|]. intros k Hk. destruct (Nat.eqb_spec k p); [lia|reflexivity].
  - rewrite IHn by lia. ring.
Qed.
Lemma csum_delta n p f :
  (p < n)%nat -> csum n (fun k => if Nat.eqb k p then f k else RtoC 0) = f p.
Proof.
  induction n; intro H; [lia|]. simpl.
  destruct (Nat.eqb_spec n p) as [->|Hn].
  - rewrite csum_0; [ring|]. intros k Hk. destruct (Nat.eqb_spec k p); [lia|reflexivity].
  - rewrite IHn by lia. ring.
Qed.
(** pick out one non-zero term *)
Lemma csum_single n p f :
  (p < n)%nat -> (forall k, (k < n)%nat -> k <> p -> f k = RtoC 0) -> csum n f = f p.
Proof.
  intros Hp H. rewrite <- (csum_delta n p f Hp). apply csum_ext. intros k Hk.
  destruct (Nat.eqb_spec k p); [reflexivity|]. apply H; assumption.
Qed.
Lemma rsum_single n p f :
  (p < n)%nat -> (forall k, (k < n)%nat -> k <> p -> f k = 0%R) -> rsum n f = f p.
Proof.
  intros Hp H. rewrite <- (rsum_delta n p f Hp). apply rsum_ext. intros k Hk.
  destruct (Nat.eqb_spec k p); [reflexivity|]. apply H; assumption.
Qed.
(** two non-zero terms *)
Lemma csum_double n p q f :
  (p < n)%nat -> (q < n)%nat -> p <> q ->
  (forall k, (k < n)%nat -> k <> p -> k <> q -> f k = RtoC 0) -> csum n f = (f p + f q)%C.
Proof.
  intros Hp Hq Hpq H.
  rewrite (csum_ext n f (fun k => (if Nat.eqb k p then f k else 0) + (if Nat.eqb k q then f k else 0))%C).
  - rewrite csum_plus, !csum_delta by assumption. reflexivity.
  - intros k Hk. destruct (Nat.eqb_spec k p) as [E1|E1]; destruct (Nat.eqb_spec k q) as [E2|E2].
    + subst; contradiction. + ring. + ring. + rewrite H by assumption. ring.
Qed.
Lemma rsum_double n p q f :
  (p < n)%nat -> (q < n)%nat -> p <> q ->
  (forall k, (k < n)%nat -> k <> p -> k <> q -> f k = 0%R) -> rsum n f = (f p + f q)%R.
Proof.
  intros Hp Hq Hpq H.
  rewrite (rsum_ext n f (fun k => (if Nat.eqb k p then f k else 0) + (if Nat.eqb k q then f k else 0))%R).
  - rewrite rsum_plus, !rsum_delta by assumption. reflexivity.
  - intros k Hk. destruct (Nat.eqb_spec k p) as [E1|E1]; destruct (Nat.eqb_spec k q) as [E2|E2].
    + subst; contradiction. + ring. + ring. + rewrite H by assumption. ring.
Qed.
Lemma rsum_le n f g : (forall k, (k < n)%nat -> (f k <= g k)%R) -> (rsum n f <= rsum n g)%R.
Proof.
  induction n; simpl; intro H; [lra|].
  apply Rplus_le_compat; [apply IHn; intros; apply H; lia|apply H; lia].
Qed.
Lemma rsum_ge0 n f : (forall k, (k < n)%nat -> (0 <= f k)%R) -> (0 <= rsum n f)%R.
Proof.
  induction n; simpl; intro H; [lra|].
  apply Rplus_le_le_0_compat; [apply IHn; intros; apply H; lia|apply H; lia].
Qed.
Lemma rsum_eq0 n f :
  (forall k, (k < n)%nat -> (0 <= f k)%R) -> rsum n f = 0%R -> forall k, (k < n)%nat -> f k = 0%R.
Proof.
  induction n; simpl; intros H E k Hk; [lia|].
  assert (0 <= rsum n f)%R by (apply rsum_ge0; intros; apply H; lia).
  assert (0 <= f n)%R by (apply H; lia).
  destruct (Nat.eq_dec k n) as [->|]; [lra|].
  apply IHn; try lia; try (intros; apply H; lia). lra.
Qed.
Lemma rsum_term_le n f k :
  (forall i, (i < n)%nat -> (0 <= f i)%R) -> (k < n)%nat -> (f k <= rsum n f)%R.
Proof.
  induction n; simpl; intros H Hk; [lia|].
  destruct (Nat.eq_dec k n) as [->|].
  - assert (0 <= rsum n f)%R by (apply rsum_ge0; intros; apply H; lia). lra.
  - assert (f k <= rsum n f)%R by (apply IHn; [intros; apply H; lia|lia]).
    assert (0 <= f n)%R by (apply H; lia). lra.
Qed.
Lemma rsum_abs n f : (Rabs (rsum n f) <= rsum n (fun k => Rabs (f k)))%R.
Proof.
  induction n; simpl; [rewrite Rabs_R0; lra|].
  eapply Rle_trans; [apply Rabs_triang|]. lra.
Qed.
Lemma csum_mod n f : (Cmod (csum n f) <= rsum n (fun k => Cmod (f k)))%R.
Proof.
  induction n; simpl; [rewrite Cmod_0; lra|].
  eapply Rle_trans; [apply Cmod_triangle|]. lra.
Qed.
Lemma Re_csum n f : Re (csum n f) = rsum n (fun k => Re (f k)).
Proof. induction n; simpl; [reflexivity|]. rewrite <- IHn; reflexivity. Qed.
Lemma Im_csum n f : Im (csum n f) = rsum n (fun k => Im (f k)).
Proof. induction n; simpl; [reflexivity|]. rewrite <- IHn; reflexivity. Qed.
Lemma Cconj_csum n f : Cconj (csum n f) = csum n (fun k => Cconj (f k)).
Proof. induction n; simpl; [cring|]. rewrite Cconj_plus, IHn; reflexivity. Qed.
Lemma RtoC_rsum n f : RtoC (rsum n f) = csum n (fun k => RtoC (f k)).
Proof. induction n; simpl; [reflexivity|]. rewrite RtoC_plus, IHn; reflexivity. Qed.
Lemma rsum_app n m f : rsum (n + m) f = (rsum n f + rsum m (fun k => f (n + k)%nat))%R.
Proof.
  induction m; simpl.
  - rewrite Nat.add_0_r; ring.
  - rewrite Nat.add_succ_r; simpl. rewrite IHm; ring.
Qed.
Lemma csum_app n m f : csum (n + m) f = (csum n f + csum m (fun k => f (n + k)%nat))%C.
Proof.
  induction m; simpl.
  - rewrite Nat.add_0_r; ring.
  - rewrite Nat.add_succ_r; simpl. rewrite IHm; ring.
Qed.
(** a sum over a flattened index is a double sum (C order) *)
Lemma rsum_flat n m f : rsum (n * m) f = rsum n (fun i => rsum m (fun j => f (i * m + j)%nat)).
Proof.
  induction n; simpl; [reflexivity|].
  rewrite Nat.add_comm, rsum_app, IHn. f_equal.
Qed.
Lemma csum_flat n m f : csum (n * m) f = csum n (fun i => csum m (fun j => f (i * m + j)%nat)).
Proof.
  induction n; simpl; [reflexivity|].
  rewrite Nat.add_comm, csum_app, IHn. f_equal.
Qed.
Lemma rsum_S_first n f : rsum (S n) f = (f O + rsum n (fun k => f (S k)))%R.
Proof. induction n; [simpl; ring|]. change (rsum (S (S n)) f) with (rsum (S n) f + f (S n))%R.
  rewrite IHn; simpl; ring. Qed.
Lemma csum_S_first n f : csum (S n) f = (f O + csum n (fun k => f (S k)))%C.
Proof. induction n; [simpl; ring|]. change (csum (S (S n)) f) with (csum (S n) f + f (S n))%C.
  rewrite IHn; simpl; ring. Qed.
(** reversal *)
Lemma rsum_rev n f : rsum n f = rsum n (fun k => f (n - 1 - k)%nat).
Proof.
  induction n; [reflexivity|].
  rewrite (rsum_S_first n (fun k => f (S n - 1 - k)%nat)). cbn [rsum].
  replace (S n - 1 - 0)%nat with n by lia. rewrite IHn.
  rewrite (rsum_ext n (fun k => f (n - 1 - k)%nat) (fun k => f (S n - 1 - S k)%nat)); [ring|].
  intros k Hk; f_equal; lia.
Qed.

(** flattened indices *)
Lemma flat_div m i j : (j < m)%nat -> ((i * m + j) / m)%nat = i.
Proof. intro H. rewrite Nat.add_comm, Nat.div_add by lia. rewrite Nat.div_small by lia. reflexivity. Qed.
Lemma flat_mod m i j : (j < m)%nat -> ((i * m + j) mod m)%nat = j.
Proof. intro H. rewrite Nat.add_comm, Nat.mod_add by lia. apply Nat.mod_small; lia. Qed.
Lemma flat_lt n m i j : (i < n)%nat -> (j < m)%nat -> (i * m + j < n * m)%nat.
Proof. intros; nia. Qed.
Lemma flat_eta m k : (0 < m)%nat -> ((k / m) * m + k mod m)%nat = k.
Proof. intro H. rewrite (Nat.div_mod k m) at 3 by lia. lia. Qed.
Lemma flat_div_lt n m k : (k < n * m)%nat -> (k / m < n)%nat.
Proof. intro H. apply Nat.div_lt_upper_bound; nia. Qed.
Lemma flat_mod_lt n m k : (k < n * m)%nat -> (k mod m < m)%nat.
Proof. intro H. apply Nat.mod_upper_bound; nia. Qed.
