(** When the system of equations of a simulation has exactly one solution:
    lemmas (polynomials, families of matrices, orthogonal vectors). *)
From Coq Require Import Reals Lra Lia List ZArith Arith Bool String Classical.
From Coquelicot Require Import Coquelicot.
From Verif Require Import Base Linear MCore MSim Spec PCore PSim PEx PExOpt PropsCore PropsNl.
Import ListNotations.
Local Open Scope nat_scope.

(** ** Polynomials *)
Fixpoint peval (l : list C) (z : C) : C :=
  match l with [] => RtoC 0 | c :: l' => (c + z * peval l' z)%C end.
Fixpoint padd (l m : list C) : list C :=
  match l, m with
  | [], _ => m
  | _, [] => l
  | a :: l', b :: m' => (a + b)%C :: padd l' m'
  end.
Lemma padd_ev l : forall m z, peval (padd l m) z = (peval l z + peval m z)%C.
Proof.
  induction l as [|a l IH]; intros m z; [cbn; ring|]. destruct m as [|b m]; [cbn; ring|].
  cbn [padd peval]. rewrite IH. ring.
Qed.
Definition pscal (a : C) (l : list C) : list C := map (fun c => (a * c)%C) l.
Lemma pscal_ev a l z : peval (pscal a l) z = (a * peval l z)%C.
Proof. induction l as [|c l IH]; cbn [pscal map peval]; [ring|]. fold (pscal a l). rewrite IH. ring. Qed.
Fixpoint pmul (l m : list C) : list C :=
  match l with [] => [] | a :: l' => padd (pscal a m) (RtoC 0 :: pmul l' m) end.
Lemma pmul_ev l m z : peval (pmul l m) z = (peval l z * peval m z)%C.
Proof.
  induction l as [|a l IH]; cbn [pmul peval]; [ring|]. rewrite padd_ev, pscal_ev. cbn [peval]. rewrite IH. ring.
Qed.
(** synthetic division by z - a *)
Fixpoint psyn (l : list C) (a : C) : list C :=
  match l with
  | [] => []
  | _ :: l' => match l' with [] => [] | _ => peval l' a :: psyn l' a end
  end.
Lemma psyn_len l a : List.length (psyn l a) = pred (List.length l).
Proof.
  induction l as [|c l IH]; [reflexivity|]. destruct l as [|d l]; [reflexivity|].
  cbn [psyn List.length pred] in *. rewrite IH. reflexivity.
Qed.
Lemma psyn_ev l a z : (peval l z - peval l a = (z - a) * peval (psyn l a) z)%C.
Proof.
  induction l as [|c l IH]; [cbn; ring|]. destruct l as [|d l]; [cbn; ring|].
  change (psyn (c :: d :: l) a) with (peval (d :: l) a :: psyn (d :: l) a).
  change (peval (c :: d :: l) z) with (c + z * peval (d :: l) z)%C.
  change (peval (c :: d :: l) a) with (c + a * peval (d :: l) a)%C.
  change (peval (peval (d :: l) a :: psyn (d :: l) a) z) with (peval (d :: l) a + z * peval (psyn (d :: l) a) z)%C.
  set (u := peval (d :: l) z) in *. set (v := peval (d :: l) a) in *. set (w := peval (psyn (d :: l) a) z) in *.
  transitivity ((z - a) * v + z * (u - v))%C; [ring|]. rewrite IH. ring.
Qed.
Lemma poly_roots n : forall l, List.length l <= n -> (exists z, peval l z <> RtoC 0) ->
  exists rs, forall z, peval l z = RtoC 0 -> In z rs.
Proof.
  induction n as [|n IH]; intros l Hl [z0 Hz].
  - destruct l; [|cbn in Hl; lia]. exfalso. apply Hz. reflexivity.
  - destruct (classic (exists a, peval l a = RtoC 0)) as [[a Ha]|Hno].
    + destruct (IH (psyn l a)) as [rs Hrs].
      * rewrite psyn_len. lia.
      * exists z0. intro E. apply Hz. assert (Q := psyn_ev l a z0). rewrite Ha, E in Q.
        transitivity (peval l z0 - RtoC 0)%C; [ring|]. rewrite Q. ring.
      * exists (a :: rs). intros z Ez. destruct (Ceq_dec z a) as [->|Hne]; [left; reflexivity|right].
        apply Hrs. assert (Q := psyn_ev l a z). rewrite Ha, Ez in Q.
        assert (Q2 : ((z - a) * peval (psyn l a) z = RtoC 0)%C) by (rewrite <- Q; ring).
        destruct (Ceq_dec (peval (psyn l a) z) (RtoC 0)) as [E|E]; [exact E|exfalso].
        apply (Cmult_neq_0 (z - a)%C (peval (psyn l a) z)); [|exact E|exact Q2].
        intro E2. apply Hne. transitivity ((z - a) + a)%C; [ring|]. rewrite E2. ring.
    + exists []. intros z Ez. exfalso. apply Hno. exists z. exact Ez.
Qed.

(** ** Functions of the frequency that are quotients of polynomials *)
Definition ratf (f : R -> C) : Prop := exists p q, forall w, (0 < w)%R ->
  peval q (RtoC w) <> RtoC 0 /\ (f w * peval q (RtoC w) = peval p (RtoC w))%C.
Lemma ratf_const c : ratf (fun _ => c).
Proof. exists [c], [RtoC 1]. intros w Hw. cbn [peval]. split; [|ring]. replace (RtoC 1 + RtoC w * RtoC 0)%C with (RtoC 1) by ring. apply RtoC_neq0. lra. Qed.
Lemma ratf_id : ratf (fun w => RtoC w).
Proof. exists [RtoC 0; RtoC 1], [RtoC 1]. intros w Hw. cbn [peval]. split; [|ring]. replace (RtoC 1 + RtoC w * RtoC 0)%C with (RtoC 1) by ring. apply RtoC_neq0. lra. Qed.
Lemma ratf_plus f g : ratf f -> ratf g -> ratf (fun w => (f w + g w)%C).
Proof.
  intros (p & q & H) (p' & q' & H'). exists (padd (pmul p q') (pmul p' q)), (pmul q q').
  intros w Hw. destruct (H w Hw) as [H1 H2], (H' w Hw) as [H3 H4].
  rewrite padd_ev, !pmul_ev, <- H2, <- H4. split; [apply Cmult_neq_0; assumption|ring].
Qed.
Lemma ratf_mult f g : ratf f -> ratf g -> ratf (fun w => (f w * g w)%C).
Proof.
  intros (p & q & H) (p' & q' & H'). exists (pmul p p'), (pmul q q').
  intros w Hw. destruct (H w Hw) as [H1 H2], (H' w Hw) as [H3 H4].
  rewrite !pmul_ev, <- H2, <- H4. split; [apply Cmult_neq_0; assumption|ring].
Qed.
Lemma ratf_inv f : ratf f -> (forall w, (0 < w)%R -> f w <> RtoC 0) -> ratf (fun w => (/ f w)%C).
Proof.
  intros (p & q & H) H0. exists q, p. intros w Hw. destruct (H w Hw) as [H1 H2]. rewrite <- H2.
  split; [apply Cmult_neq_0; [apply H0; exact Hw|exact H1]|]. field. apply H0; exact Hw.
Qed.
Lemma ratf_ext f g : (forall w, (0 < w)%R -> f w = g w) -> ratf f -> ratf g.
Proof. intros E (p & q & H). exists p, q. intros w Hw. rewrite <- E by exact Hw. apply H; exact Hw. Qed.
Lemma ratf_minus f g : ratf f -> ratf g -> ratf (fun w => (f w - g w)%C).
Proof.
  intros H1 H2. apply (ratf_ext (fun w => (f w + RtoC (-1) * g w)%C)).
  - intros w _. cring.
  - apply ratf_plus; [exact H1|]. apply (ratf_mult (fun _ => RtoC (-1)) g); [apply ratf_const|exact H2].
Qed.
Lemma ratf_csum n (f : nat -> R -> C) : (forall k, k < n -> ratf (f k)) -> ratf (fun w => csum n (fun k => f k w)).
Proof.
  induction n as [|n IH]; intro H; [apply (ratf_const (RtoC 0))|]. cbn [csum].
  apply (ratf_plus (fun w => csum n (fun k => f k w)) (f n)); [apply IH; intros; apply H; lia|apply H; lia].
Qed.
Lemma ratf_roots f w0 : ratf f -> (0 < w0)%R -> f w0 <> RtoC 0 ->
  exists l : list R, forall w, (0 < w)%R -> f w = RtoC 0 -> In w l.
Proof.
  intros (p & q & H) H0 Hf. destruct (poly_roots (List.length p) p (Nat.le_refl _)) as [rs Hrs].
  - exists (RtoC w0). destruct (H w0 H0) as [H1 H2]. rewrite <- H2. apply Cmult_neq_0; assumption.
  - exists (map Re rs). intros w Hw E. apply in_map_iff. exists (RtoC w). split; [reflexivity|].
    apply Hrs. destruct (H w Hw) as [_ H2]. rewrite <- H2, E. ring.
Qed.

(** ** A family of matrices that is non-singular once is so almost always *)
Definition injm (n : nat) (A : mat) : Prop :=
  forall x, (forall i, i < n -> mv n A x i = RtoC 0) -> forall j, j < n -> x j = RtoC 0.
Definition skip (p i : nat) : nat := if Nat.ltb i p then i else S i.
Definition schur (n p : nat) (A : mat) : mat :=
  fun i j => (A p n * A (skip p i) j - A (skip p i) n * A p j)%C.
Lemma skip_lt n p i : i < n -> skip p i < S n.
Proof. unfold skip. destruct (Nat.ltb_spec i p); lia. Qed.
Lemma skip_all n p i : i < S n -> p < S n -> i = p \/ exists i', i' < n /\ i = skip p i'.
Proof.
  intros Hi Hp. destruct (Nat.lt_trichotomy i p) as [H|[H|H]].
  - right. exists i. split; [lia|]. unfold skip. destruct (Nat.ltb_spec i p); lia.
  - left. exact H.
  - right. exists (i - 1). split; [lia|]. unfold skip. destruct (Nat.ltb_spec (i - 1) p); lia.
Qed.
Lemma schur_row n p A y i : mv n (schur n p A) y i = (A p n * mv n A y (skip p i) - A (skip p i) n * mv n A y p)%C.
Proof. unfold mv, schur. rewrite <- !csum_scal, <- csum_minus. apply csum_ext; intros; ring. Qed.
Lemma schur_inj n p A : p < S n -> A p n <> RtoC 0 -> (injm (S n) A <-> injm n (schur n p A)).
Proof.
  intros Hp HA. assert (row : forall x i, mv (S n) A x i = (mv n A x i + A i n * x n)%C) by reflexivity. split.
  - intros H y Hy j Hj.
    set (x := fun j => if Nat.eqb j n then (- (mv n A y p) / A p n)%C else y j).
    assert (Hx : forall j, j < n -> x j = y j).
    { intros k Hk. unfold x. destruct (Nat.eqb_spec k n); [lia|reflexivity]. }
    assert (Hxn : x n = (- (mv n A y p) / A p n)%C) by (unfold x; rewrite Nat.eqb_refl; reflexivity).
    rewrite <- (Hx j Hj). apply (H x); [|lia]. intros i Hi. rewrite row, (mv_ext_v n A x y i Hx), Hxn.
    destruct (skip_all n p i Hi Hp) as [->|(i' & Hi' & ->)]; [field; exact HA|].
    specialize (Hy i' Hi'). rewrite schur_row in Hy.
    transitivity ((A p n * mv n A y (skip p i') - A (skip p i') n * mv n A y p) / A p n)%C; [field; exact HA|].
    rewrite Hy. field. exact HA.
  - intros H x Hx.
    assert (H0 : forall j, j < n -> x j = RtoC 0).
    { apply H. intros i Hi. rewrite schur_row. assert (E1 := Hx p Hp). assert (E2 := Hx _ (skip_lt n p i Hi)).
      rewrite row in E1, E2.
      transitivity (A p n * (mv n A x (skip p i) + A (skip p i) n * x n) - A (skip p i) n * (mv n A x p + A p n * x n))%C; [ring|].
      rewrite E1, E2. ring. }
    intros j Hj. destruct (Nat.eq_dec j n) as [->|]; [|apply H0; lia].
    assert (E1 := Hx p Hp). rewrite row in E1. rewrite (mv_ext_v n A x vzero p) in E1 by (intros k Hk; apply H0; exact Hk).
    rewrite mv_zero in E1. destruct (Ceq_dec (x n) (RtoC 0)) as [E|E]; [exact E|exfalso].
    apply (Cmult_neq_0 _ _ HA E). rewrite <- E1. ring.
Qed.
Lemma injm_column n A : injm (S n) A -> exists p, p < S n /\ A p n <> RtoC 0.
Proof.
  intro H. apply NNPP. intro Hno.
  assert (E : (fun j => if Nat.eqb j n then RtoC 1 else RtoC 0) n = RtoC 0).
  { apply (H (fun j => if Nat.eqb j n then RtoC 1 else RtoC 0)); [|lia].
    intros i Hi. unfold mv; cbn [csum]. rewrite Nat.eqb_refl. rewrite csum_0.
    - destruct (Ceq_dec (A i n) (RtoC 0)) as [->|Hne]; [ring|]. exfalso; apply Hno; exists i; auto.
    - intros k Hk; destruct (Nat.eqb_spec k n); [lia|ring]. }
  cbv beta in E. rewrite Nat.eqb_refl in E. apply RtoC_inj in E. lra.
Qed.
Lemma family n : forall A : R -> mat, (forall i j, i < n -> j < n -> ratf (fun w => A w i j)) ->
  forall w0, (0 < w0)%R -> injm n (A w0) -> exists l : list R, forall w, (0 < w)%R -> ~ In w l -> injm n (A w).
Proof.
  induction n as [|n IH]; intros A HA w0 H0 HI.
  - exists []. intros w _ _ x _ j Hj. lia.
  - destruct (injm_column n _ HI) as (p & Hp & Hpn).
    destruct (ratf_roots (fun w => A w p n) w0) as [l1 Hl1]; [apply HA; lia|exact H0|exact Hpn|].
    destruct (IH (fun w => schur n p (A w))) with (w0 := w0) as [l2 Hl2].
    + intros i j Hi Hj. unfold schur.
      apply (ratf_minus (fun w => (A w p n * A w (skip p i) j)%C) (fun w => (A w (skip p i) n * A w p j)%C));
        [apply (ratf_mult (fun w => A w p n) (fun w => A w (skip p i) j))|apply (ratf_mult (fun w => A w (skip p i) n) (fun w => A w p j))];
        apply HA; try apply skip_lt; lia.
    + exact H0.
    + apply (proj1 (schur_inj n p (A w0) Hp Hpn)). exact HI.
    + exists (l1 ++ l2). intros w Hw Hn. apply (schur_inj n p (A w) Hp).
      * intro E. apply Hn. apply in_or_app. left. apply Hl1; assumption.
      * apply Hl2; [exact Hw|]. intro Hi. apply Hn. apply in_or_app. right. exact Hi.
Qed.

(** ** The entries of the system matrix as functions of the frequency *)
Definition bdf (f : R -> C) : Prop := exists K, (0 <= K)%R /\ forall w, (1 <= w)%R -> (Cmod (f w) <= K)%R.
Definition nice (f : R -> C) : Prop := ratf f /\ bdf f.
Lemma nice_const c : nice (fun _ => c).
Proof. split; [apply ratf_const|]. exists (Cmod c). split; [apply Cmod_ge_0|intros; lra]. Qed.
Lemma nice_plus f g : nice f -> nice g -> nice (fun w => (f w + g w)%C).
Proof.
  intros [F1 (K1 & P1 & B1)] [F2 (K2 & P2 & B2)]. split; [apply ratf_plus; assumption|].
  exists (K1 + K2)%R. split; [lra|]. intros w Hw. eapply Rle_trans; [apply Cmod_triangle|].
  specialize (B1 w Hw). specialize (B2 w Hw). lra.
Qed.
Lemma nice_mult f g : nice f -> nice g -> nice (fun w => (f w * g w)%C).
Proof.
  intros [F1 (K1 & P1 & B1)] [F2 (K2 & P2 & B2)]. split; [apply ratf_mult; assumption|].
  exists (K1 * K2)%R. split; [apply Rmult_le_pos; assumption|]. intros w Hw. rewrite Cmod_mult.
  apply Rmult_le_compat; try apply Cmod_ge_0; auto.
Qed.
Lemma nice_csum n (f : nat -> R -> C) : (forall k, k < n -> nice (f k)) -> nice (fun w => csum n (fun k => f k w)).
Proof.
  induction n as [|n IH]; intro H; [apply (nice_const (RtoC 0))|]. cbn [csum].
  apply (nice_plus (fun w => csum n (fun k => f k w)) (f n)); [apply IH; intros; apply H; lia|apply H; lia].
Qed.
Lemma nice_ext f g : (forall w, (0 < w)%R -> f w = g w) -> nice f -> nice g.
Proof.
  intros E [H1 (K & P & B)]. split; [apply (ratf_ext f); assumption|]. exists K. split; [exact P|].
  intros w Hw. rewrite <- E by lra. apply B; exact Hw.
Qed.
Lemma Sfac_ratf l dw L0 : (0 < L0)%R -> ratf (fun w => Sfac l dw w L0).
Proof.
  intro HL. assert (HE := EPSILON_0_pos).
  apply (ratf_ext (fun w => (RtoC 1 - (Ci * RtoC (sig_w l dw) * / RtoC (EPSILON_0 * L0)) * / RtoC w)%C)).
  - intros w Hw. unfold Sfac. replace (w * EPSILON_0 * L0)%R with (EPSILON_0 * L0 * w)%R by ring.
    rewrite (RtoC_mult (EPSILON_0 * L0)). field. split; apply RtoC_neq0; [lra|].
    apply Rgt_not_eq, Rmult_lt_0_compat; assumption.
  - apply (ratf_minus (fun _ => RtoC 1)); [apply ratf_const|].
    apply (ratf_mult (fun _ => _)); [apply ratf_const|]. apply ratf_inv; [apply ratf_id|].
    intros w Hw. apply RtoC_neq0. lra.
Qed.
Lemma sfactor_ratf range L0 s Nw Np i : (0 < L0)%R -> ratf (fun w => create_sfactor range L0 s w Nw Np i).
Proof.
  intro HL. unfold create_sfactor. destruct (Nat.ltb Np 1); [apply ratf_const|].
  destruct s; (destruct (Nat.leb i Np); [apply Sfac_ratf; exact HL|]; destruct (Z.ltb _ _); [apply Sfac_ratf; exact HL|apply ratf_const]).
Qed.
Lemma inv_sfactor_nice range L0 s Nw Np i : (0 < L0)%R -> (fst range < snd range)%R -> 0 < Nw ->
  nice (fun w => (/ create_sfactor range L0 s w Nw Np i)%C).
Proof.
  intros HL HR HN. split.
  - apply ratf_inv; [apply sfactor_ratf; exact HL|]. intros w Hw. apply sfactor_neq0; assumption.
  - exists 1%R. split; [lra|]. intros w Hw. apply inv_sfactor_le1; try assumption. lra.
Qed.
Section Entries.
Variables (L0 : R) (Nx Ny : nat) (NPML : nat * nat) (xr yr : R * R).
Hypotheses (HL : (0 < L0)%R) (HNx : 0 < Nx) (HNy : 0 < Ny) (Hx : (fst xr < snd xr)%R) (Hy : (fst yr < snd yr)%R).
Notation M := (Nx * Ny).
Lemma make_deriv_nice a s r c : r < M -> nice (fun w => make_deriv a s w L0 Nx Ny NPML xr yr r c).
Proof.
  intro Hr. eapply nice_ext; [intros w _; symmetry; apply make_deriv_entry; exact Hr|].
  apply (nice_mult (fun w => S_vec a s w L0 Nx Ny NPML xr yr r) (fun _ => _)); [|apply nice_const].
  unfold S_vec. destruct a; apply inv_sfactor_nice; assumption.
Qed.
Lemma term_nice a (g : vec) r c : r < M -> c < M ->
  nice (fun w => mm M (mm M (make_deriv a Fwd w L0 Nx Ny NPML xr yr) (mdiag g)) (make_deriv a Bwd w L0 Nx Ny NPML xr yr) r c).
Proof.
  intros Hr Hc. unfold mm at 1.
  apply (nice_csum M (fun j w => (mm M (make_deriv a Fwd w L0 Nx Ny NPML xr yr) (mdiag g) r j * make_deriv a Bwd w L0 Nx Ny NPML xr yr j c)%C)).
  intros j Hj. apply (nice_mult (fun w => mm M (make_deriv a Fwd w L0 Nx Ny NPML xr yr) (mdiag g) r j) (fun w => make_deriv a Bwd w L0 Nx Ny NPML xr yr j c)).
  - eapply nice_ext; [intros w _; symmetry; apply mm_diag_r; exact Hj|].
    apply (nice_mult (fun w => make_deriv a Fwd w L0 Nx Ny NPML xr yr r j) (fun _ => g j)); [|apply nice_const].
    apply make_deriv_nice; exact Hr.
  - apply make_deriv_nice; exact Hj.
Qed.
(** the part of the matrix with the derivatives, and the diagonal one without the
    factor omega^2 *)
Definition derpart (p : pol) (av : bool) (eps : vec) (w : R) : mat := fun r c =>
  (mm M (mm M (make_deriv AxX Fwd w L0 Nx Ny NPML xr yr) (mdiag (Ax_g L0 Nx Ny p av eps))) (make_deriv AxX Bwd w L0 Nx Ny NPML xr yr) r c
   + mm M (mm M (make_deriv AxY Fwd w L0 Nx Ny NPML xr yr) (mdiag (Ay_g L0 Nx Ny p av eps))) (make_deriv AxY Bwd w L0 Nx Ny NPML xr yr) r c)%C.
Definition massC (p : pol) (eps : vec) (k : nat) : C :=
  match p with PolEz => (RtoC (EPSILON_0 * L0) * eps k)%C | PolHz => RtoC (MU_0 * L0) end.
Lemma A_split p av eps w r c : r < M -> c < M ->
  fst (construct_A w xr yr Nx Ny eps NPML p L0 av) r c =
  (derpart p av eps w r c + (if Nat.eqb r c then RtoC (w ^ 2) * massC p eps r else RtoC 0))%C.
Proof.
  intros Hr Hc. rewrite A_decomp by assumption. unfold derpart. f_equal. unfold mdiag.
  destruct (Nat.eqb r c); [|reflexivity]. destruct p; cbn [Ad_g massC]; [reflexivity|]. apply RtoC_mult.
Qed.
Lemma mv_A_split p av eps w x r : r < M ->
  mv M (fst (construct_A w xr yr Nx Ny eps NPML p L0 av)) x r =
  (mv M (derpart p av eps w) x r + RtoC (w ^ 2) * massC p eps r * x r)%C.
Proof.
  intro Hr. transitivity (mv M (mplus (derpart p av eps w) (mdiag (fun k => RtoC (w ^ 2) * massC p eps k)%C)) x r).
  - unfold mv. apply csum_ext. intros c Hc. rewrite A_split by assumption. unfold mplus, mdiag. reflexivity.
  - rewrite mv_mplus, mv_diag by exact Hr. reflexivity.
Qed.
Lemma derpart_nice p av eps r c : r < M -> c < M -> nice (fun w => derpart p av eps w r c).
Proof.
  intros Hr Hc. unfold derpart.
  apply (nice_plus (fun w => mm M (mm M (make_deriv AxX Fwd w L0 Nx Ny NPML xr yr) (mdiag (Ax_g L0 Nx Ny p av eps))) (make_deriv AxX Bwd w L0 Nx Ny NPML xr yr) r c)
    (fun w => mm M (mm M (make_deriv AxY Fwd w L0 Nx Ny NPML xr yr) (mdiag (Ay_g L0 Nx Ny p av eps))) (make_deriv AxY Bwd w L0 Nx Ny NPML xr yr) r c)); apply term_nice; assumption.
Qed.
Lemma A_ratf p av eps r c : r < M -> c < M -> ratf (fun w => fst (construct_A w xr yr Nx Ny eps NPML p L0 av) r c).
Proof.
  intros Hr Hc. eapply ratf_ext; [intros w _; symmetry; apply A_split; assumption|].
  apply (ratf_plus (fun w => derpart p av eps w r c) (fun w => if Nat.eqb r c then (RtoC (w ^ 2) * massC p eps r)%C else RtoC 0));
    [apply derpart_nice; assumption|]. destruct (Nat.eqb r c); [|apply ratf_const].
  apply (ratf_mult (fun w => RtoC (w ^ 2)) (fun _ => massC p eps r)); [|apply ratf_const].
  apply (ratf_ext (fun w => (RtoC w * RtoC w)%C)); [intros w _; rewrite <- RtoC_mult; f_equal; ring|].
  apply (ratf_mult (fun w => RtoC w) (fun w => RtoC w)); apply ratf_id.
Qed.
Lemma bounded_all n (f : nat -> R -> C) : (forall k, k < n -> bdf (f k)) ->
  exists K, (0 <= K)%R /\ forall k w, k < n -> (1 <= w)%R -> (Cmod (f k w) <= K)%R.
Proof.
  induction n as [|n IH]; intro H; [exists 0%R; split; [lra|intros; lia]|].
  destruct IH as (K & P & B); [intros; apply H; lia|]. destruct (H n) as (K2 & P2 & B2); [lia|].
  exists (K + K2)%R. split; [lra|]. intros k w Hk Hw. destruct (Nat.eq_dec k n) as [->|].
  - specialize (B2 w Hw). lra.
  - assert (Q := B k w ltac:(lia) Hw). lra.
Qed.
Lemma Cmod_csum_le n (f : nat -> C) K : (forall k, k < n -> (Cmod (f k) <= K)%R) -> (Cmod (csum n f) <= INR n * K)%R.
Proof.
  induction n as [|n IH]; intro H; [cbn [csum]; rewrite Cmod_0; simpl; lra|]. cbn [csum]. rewrite S_INR.
  eapply Rle_trans; [apply Cmod_triangle|]. assert (Q := IH ltac:(intros; apply H; lia)). assert (Q2 := H n ltac:(lia)). lra.
Qed.
Lemma high_freq p av eps c : (0 < c)%R -> (forall k, k < M -> (c <= Cmod (massC p eps k))%R) ->
  exists w0, (1 <= w0)%R /\ nonsingular M (fst (construct_A w0 xr yr Nx Ny eps NPML p L0 av)).
Proof.
  intros Hc Hm.
  assert (H1 : forall r, r < M -> exists K, (0 <= K)%R /\ forall k w, k < M -> (1 <= w)%R -> (Cmod (derpart p av eps w r k) <= K)%R).
  { intros r Hr. apply bounded_all. intros k Hk. apply derpart_nice; assumption. }
  assert (H2 : exists K, (0 <= K)%R /\ forall r k w, r < M -> k < M -> (1 <= w)%R -> (Cmod (derpart p av eps w r k) <= K)%R).
  { clear -H1. revert H1. generalize M at 1 3 as n. induction n as [|n IH]; intro H1; [exists 0%R; split; [lra|intros; lia]|].
    destruct IH as (K & P & B); [intros; apply H1; lia|]. destruct (H1 n) as (K2 & P2 & B2); [lia|].
    exists (K + K2)%R. split; [lra|]. intros r k w Hr Hk Hw. destruct (Nat.eq_dec r n) as [->|].
    - specialize (B2 k w Hk Hw). lra.
    - assert (Q := B r k w ltac:(lia) Hk Hw). lra. }
  destruct H2 as (K & P & B). set (w0 := (1 + INR M * K / c)%R).
  assert (HMK : (0 <= INR M * K)%R) by (apply Rmult_le_pos; [apply pos_INR|exact P]).
  assert (Hw0 : (1 <= w0)%R).
  { unfold w0. assert (0 <= INR M * K / c)%R by (apply Rmult_le_pos; [exact HMK|left; apply Rinv_0_lt_compat; exact Hc]). lra. }
  exists w0. split; [exact Hw0|]. apply nonsingular_max. intros x q Hq Hmax E.
  rewrite mv_A_split in E by exact Hq. apply Cmod_eq_0. set (m := Cmod (x q)) in *.
  assert (Hm0 : (0 <= m)%R) by apply Cmod_ge_0.
  assert (B1 : (Cmod (mv M (derpart p av eps w0) x q) <= INR M * (K * m))%R).
  { unfold mv. apply Cmod_csum_le. intros k Hk. rewrite Cmod_mult. apply Rmult_le_compat; try apply Cmod_ge_0; [apply B; assumption|apply Hmax; exact Hk]. }
  assert (B2 : (Cmod (RtoC (w0 ^ 2) * massC p eps q * x q)%C = Cmod (mv M (derpart p av eps w0) x q))%R).
  { rewrite <- Cmod_opp. f_equal.
    transitivity (mv M (derpart p av eps w0) x q - (mv M (derpart p av eps w0) x q + RtoC (w0 ^ 2) * massC p eps q * x q))%C; [ring|].
    rewrite E. ring. }
  rewrite !Cmod_mult, Cmod_R in B2. rewrite Rabs_pos_eq in B2 by (apply pow_le; lra). fold m in B2.
  assert (Q1 : (w0 * c * m <= INR M * K * m)%R).
  { assert (c <= Cmod (massC p eps q))%R by (apply Hm; exact Hq).
    assert (w0 * c <= w0 ^ 2 * Cmod (massC p eps q))%R.
    { apply Rmult_le_compat; try lra. clear -Hw0. nra. }
    assert (w0 * c * m <= w0 ^ 2 * Cmod (massC p eps q) * m)%R by (apply Rmult_le_compat_r; lra). lra. }
  assert (Q2 : (w0 * c = c + INR M * K)%R) by (unfold w0; field; lra). rewrite Q2 in Q1.
  assert (c * m <= 0)%R by lra. assert (Hcm : (0 <= c * m)%R) by (apply Rmult_le_pos; lra).
  assert (c * m = 0)%R as Z by lra. apply Rmult_integral in Z. destruct Z; lra.
Qed.
Lemma A_almost_always p av eps : (forall k, k < M -> massC p eps k <> RtoC 0) ->
  exists l : list R, forall w, (0 < w)%R -> ~ In w l -> nonsingular M (fst (construct_A w xr yr Nx Ny eps NPML p L0 av)).
Proof.
  intro Hm.
  assert (HC : exists c, (0 < c)%R /\ forall k, k < M -> (c <= Cmod (massC p eps k))%R).
  { revert Hm. generalize M as n. induction n as [|n IH]; intro Hm; [exists 1%R; split; [lra|intros; lia]|].
    destruct IH as (c & P & B); [intros; apply Hm; lia|].
    assert (Q := proj1 (Cmod_gt_0 (massC p eps n)) (Hm n ltac:(lia))).
    exists (Rmin c (Cmod (massC p eps n))). split; [apply Rmin_pos; assumption|]. intros k Hk.
    destruct (Nat.eq_dec k n) as [->|]; [apply Rmin_r|]. eapply Rle_trans; [apply Rmin_l|apply B; lia]. }
  destruct HC as (c & P & B). destruct (high_freq p av eps c P B) as (w0 & H0 & HN).
  destruct (family M (fun w => fst (construct_A w xr yr Nx Ny eps NPML p L0 av))) with (w0 := w0) as [l Hl].
  - intros i j Hi Hj. apply A_ratf; assumption.
  - lra.
  - intros x Hz. apply (nonsingular_injective _ _ x HN Hz).
  - exists l. intros w Hw Hn. apply injective_nonsingular. exact (Hl w Hw Hn).
Qed.
End Entries.

Lemma csum_RtoC n (f : nat -> R) : csum n (fun k => RtoC (f k)) = RtoC (rsum n f).
Proof. induction n as [|n IH]; [reflexivity|]. cbn [csum rsum]. rewrite IH, RtoC_plus. reflexivity. Qed.
Lemma Cconj_self z : (Cconj z * z)%C = RtoC (Cnorm2 z).
Proof. destruct z as [a b]. unfold Cnorm2, Cconj, RtoC, Cmult. cbn [fst snd Re Im]. f_equal; ring. Qed.
(** ** Orthogonal vectors: no more than the dimension *)
Section Orth.
Variables (n : nat) (d : nat -> R).
Hypothesis Hd : forall k, k < n -> (0 < d k)%R.
Definition ip (u v : vec) : C := csum n (fun k => (Cconj (u k) * (RtoC (d k) * v k))%C).
Lemma ip_minus_r u v w : ip u (vminus v w) = (ip u v - ip u w)%C.
Proof. unfold ip. rewrite <- csum_minus. apply csum_ext; intros; unfold vminus; ring. Qed.
Lemma ip_conj u v : Cconj (ip u v) = ip v u.
Proof. unfold ip. rewrite Cconj_csum. apply csum_ext; intros. rewrite !Cconj_mult, Cconj_invol, Cconj_RtoC. ring. Qed.
Lemma ip_minus_l u v w : ip (vminus u v) w = (ip u w - ip v w)%C.
Proof. rewrite <- ip_conj, ip_minus_r, Cconj_minus, !ip_conj. reflexivity. Qed.
Lemma ip_sum_r u m (a : nat -> C) (V : nat -> vec) :
  ip u (fun k => csum m (fun j => (a j * V j k)%C)) = csum m (fun j => (a j * ip u (V j))%C).
Proof.
  unfold ip. rewrite (csum_ext n _ (fun k => csum m (fun j => (a j * (Cconj (u k) * (RtoC (d k) * V j k)))%C))).
  - rewrite csum_swap. apply csum_ext. intros j Hj. rewrite <- csum_scal. reflexivity.
  - intros k Hk. rewrite <- !csum_scal. apply csum_ext. intros; ring.
Qed.
Lemma ip_self u : ip u u = RtoC (rsum n (fun k => d k * Cnorm2 (u k))%R).
Proof.
  unfold ip. rewrite <- csum_RtoC. apply csum_ext. intros k Hk. rewrite RtoC_mult, <- Cconj_self. ring.
Qed.
Lemma ip_pos u : (0 <= Re (ip u u))%R.
Proof.
  rewrite ip_self. cbn [Re fst RtoC]. apply rsum_ge0. intros k Hk.
  apply Rmult_le_pos; [left; apply Hd; exact Hk|apply Cnorm2_ge0].
Qed.
Lemma bessel m (V : nat -> vec) i : i < n ->
  (forall j l, j < m -> l < m -> ip (V j) (V l) = if Nat.eqb j l then RtoC 1 else RtoC 0) ->
  (rsum m (fun j => d i * Cnorm2 (V j i)) <= 1)%R.
Proof.
  intros Hi HV. set (e := fun k => if Nat.eqb k i then RtoC 1 else RtoC 0).
  set (a := fun j => ip (V j) e). set (P := fun k => csum m (fun j => (a j * V j k)%C)).
  assert (Ea : forall u, ip u e = (Cconj (u i) * RtoC (d i))%C).
  { intro u. unfold ip. rewrite (csum_single n i); [|exact Hi|].
    - unfold e. rewrite Nat.eqb_refl. ring.
    - intros k Hk Hne. unfold e. destruct (Nat.eqb_spec k i); [contradiction|ring]. }
  assert (EP : forall j, j < m -> ip (V j) P = a j).
  { intros j Hj. unfold P. rewrite ip_sum_r. rewrite (csum_single m j); [|exact Hj|].
    - rewrite HV, Nat.eqb_refl by assumption. ring.
    - intros l Hl Hne. rewrite HV by assumption. destruct (Nat.eqb_spec j l); [congruence|ring]. }
  assert (S1 : ip e P = csum m (fun j => (a j * Cconj (a j))%C)).
  { unfold P. rewrite ip_sum_r. apply csum_ext. intros j Hj. unfold a. rewrite ip_conj. reflexivity. }
  assert (S2 : ip P P = csum m (fun j => (a j * Cconj (a j))%C)).
  { unfold P at 2. rewrite ip_sum_r. apply csum_ext. intros j Hj. rewrite <- (EP j Hj), ip_conj. reflexivity. }
  assert (S0 : csum m (fun j => (a j * Cconj (a j))%C) = RtoC (d i * rsum m (fun j => d i * Cnorm2 (V j i)))%R).
  { rewrite <- rsum_scal, <- csum_RtoC. apply csum_ext. intros j Hj. unfold a. rewrite Ea, Cconj_mult, Cconj_invol, Cconj_RtoC.
    rewrite !RtoC_mult, <- Cconj_self. ring. }
  assert (S3 : ip P e = csum m (fun j => (a j * Cconj (a j))%C)).
  { rewrite <- ip_conj, S1, S0, Cconj_RtoC. reflexivity. }
  assert (S4 : ip e e = RtoC (d i)).
  { rewrite Ea. unfold e. rewrite Nat.eqb_refl, Cconj_RtoC. ring. }
  assert (Q := ip_pos (vminus e P)). rewrite ip_minus_l, !ip_minus_r, S1, S2, S3, S4, S0 in Q.
  set (T := rsum m (fun j => (d i * Cnorm2 (V j i))%R)) in *. cbn in Q.
  assert (Hdi := Hd i Hi). apply (Rmult_le_reg_l (d i)); [exact Hdi|]. lra.
Qed.
Lemma orth_count m (V : nat -> vec) :
  (forall j l, j < m -> l < m -> ip (V j) (V l) = if Nat.eqb j l then RtoC 1 else RtoC 0) -> m <= n.
Proof.
  intro HV. apply INR_le.
  assert (E : (rsum n (fun i => rsum m (fun j => d i * Cnorm2 (V j i))) = INR m)%R).
  { rewrite rsum_swap. rewrite (rsum_ext m _ (fun _ => 1%R)).
    - clear. induction m as [|m IH]; [reflexivity|]. rewrite S_INR. cbn [rsum]. rewrite IH. reflexivity.
    - intros j Hj. assert (Q := HV j j Hj Hj). rewrite ip_self, Nat.eqb_refl in Q. apply RtoC_inj in Q. exact Q. }
  rewrite <- E. clear E.
  assert (G : forall k, k <= n -> (rsum k (fun i => rsum m (fun j => d i * Cnorm2 (V j i))) <= INR k)%R).
  { induction k as [|k IH]; intro Hk; [simpl; lra|]. rewrite S_INR. cbn [rsum].
    assert (Q := bessel m V k ltac:(lia) HV). assert (Q2 := IH ltac:(lia)). lra. }
  apply G. lia.
Qed.

(** eigenvalues of B + lambda d: no more than the dimension *)
Lemma eig_count (B : mat) (ls : list R) : NoDup ls ->
  (forall r c, r < n -> c < n -> B r c = B c r) -> (forall r c, r < n -> c < n -> Cconj (B r c) = B r c) ->
  (forall la, In la ls -> exists x, (exists k, k < n /\ x k <> RtoC 0) /\
      forall r, r < n -> (mv n B x r + RtoC la * RtoC (d r) * x r)%C = RtoC 0) ->
  List.length ls <= n.
Proof.
  intros HND Hs Hr HE. set (m := List.length ls).
  destruct (finite_choice (d := RtoC 0) m (fun j x => (exists k, k < n /\ x k <> RtoC 0) /\
      forall r, r < n -> (mv n B x r + RtoC (nth j ls 0%R) * RtoC (d r) * x r)%C = RtoC 0)) as [X HX].
  { intros j Hj. apply HE. apply nth_In. exact Hj. }
  assert (HB : forall u v, csum n (fun r => (Cconj (u r) * mv n B v r)%C) = Cconj (csum n (fun r => (Cconj (v r) * mv n B u r)%C))).
  { intros u v. rewrite Cconj_csum. unfold mv.
    rewrite (csum_ext n _ (fun r => csum n (fun c => (Cconj (u r) * (B r c * v c))%C))) by (intros; rewrite <- csum_scal; reflexivity).
    rewrite csum_swap. apply csum_ext. intros c Hc. rewrite Cconj_mult, Cconj_csum, Cconj_invol, <- csum_scal.
    apply csum_ext. intros r Hrr. rewrite Cconj_mult, Hr, (Hs r c) by assumption. ring. }
  assert (HI : forall j u, j < m -> csum n (fun r => (Cconj (u r) * mv n B (X j) r)%C) = (- (RtoC (nth j ls 0%R) * ip u (X j)))%C).
  { intros j u Hj. destruct (HX j Hj) as [_ Hz]. unfold ip.
    rewrite <- csum_scal.
    transitivity (csum n (fun r => (RtoC (-1) * (RtoC (nth j ls 0%R) * (Cconj (u r) * (RtoC (d r) * X j r))))%C)).
    - apply csum_ext. intros r Hrr. specialize (Hz r Hrr).
      transitivity (Cconj (u r) * ((mv n B (X j) r + RtoC (nth j ls 0%R) * RtoC (d r) * X j r) - RtoC (nth j ls 0%R) * RtoC (d r) * X j r))%C; [ring|].
      rewrite Hz. cring.
    - rewrite csum_scal. cring. }
  assert (HO : forall j l, j < m -> l < m -> j <> l -> ip (X j) (X l) = RtoC 0).
  { intros j l Hj Hl Hne. assert (E1 := HI l (X j) Hl). assert (E2 := HI j (X l) Hj).
    rewrite HB, E2 in E1. rewrite Cconj_opp, Cconj_mult, Cconj_RtoC, ip_conj in E1.
    assert (Hdiff : nth j ls 0%R <> nth l ls 0%R).
    { intro E. apply Hne. apply (proj1 (NoDup_nth ls 0%R) HND); assumption. }
    destruct (Ceq_dec (ip (X j) (X l)) (RtoC 0)) as [E|E]; [exact E|exfalso].
    apply (Cmult_neq_0 (RtoC (nth j ls 0%R - nth l ls 0%R)) (ip (X j) (X l))); [apply RtoC_neq0; lra|exact E|].
    rewrite RtoC_minus.
    transitivity ((- (RtoC (nth l ls 0%R) * ip (X j) (X l))) - (- (RtoC (nth j ls 0%R) * ip (X j) (X l))))%C; [ring|].
    rewrite <- E1. ring. }
  set (N2 := fun j => rsum n (fun k => (d k * Cnorm2 (X j k))%R)).
  assert (HP : forall j, j < m -> (0 < N2 j)%R).
  { intros j Hj. destruct (HX j Hj) as [(k & Hk & Hxk) _].
    assert (Q : (0 <= N2 j)%R) by (apply rsum_ge0; intros i Hi; apply Rmult_le_pos; [left; apply Hd; exact Hi|apply Cnorm2_ge0]).
    destruct (Rle_lt_or_eq_dec _ _ Q) as [?|E]; [assumption|exfalso].
    assert (Z : (d k * Cnorm2 (X j k) = 0)%R).
    { apply (rsum_eq0 n (fun k => (d k * Cnorm2 (X j k))%R)); [|symmetry; exact E|exact Hk].
      intros i Hi. apply Rmult_le_pos; [left; apply Hd; exact Hi|apply Cnorm2_ge0]. }
    apply Rmult_integral in Z. assert (Hdk := Hd k Hk). destruct Z as [Z|Z]; [lra|]. apply Hxk. apply Cnorm2_eq0. exact Z. }
  apply (orth_count m (fun j k => (RtoC (/ sqrt (N2 j)) * X j k)%C)). intros j l Hj Hl.
  assert (E : ip (fun k => (RtoC (/ sqrt (N2 j)) * X j k)%C) (fun k => (RtoC (/ sqrt (N2 l)) * X l k)%C) =
     (RtoC (/ sqrt (N2 j) * / sqrt (N2 l)) * ip (X j) (X l))%C).
  { unfold ip. rewrite <- csum_scal. apply csum_ext. intros k Hk. rewrite Cconj_mult, Cconj_RtoC, RtoC_mult. ring. }
  rewrite E. destruct (Nat.eqb_spec j l) as [->|Hne]; [|rewrite HO by assumption; ring].
  rewrite ip_self. fold (N2 l). rewrite <- RtoC_mult. f_equal.
  assert (Q := HP l Hl). assert (Q2 := sqrt_lt_R0 _ Q). rewrite <- (sqrt_sqrt (N2 l)) at 3 by lra. field. lra.
Qed.
End Orth.

Lemma NoDup_squares (ls : list R) : NoDup ls -> (forall w, In w ls -> (0 < w)%R) -> NoDup (map (fun w => (w ^ 2)%R) ls).
Proof.
  induction ls as [|a ls IH]; intros H HP; [constructor|]. inversion H as [|? ? Hn Hd]; subst. cbn [map]. constructor.
  - intro Hi. apply in_map_iff in Hi. destruct Hi as (b & E & Hb). apply Hn.
    assert (P1 := HP a (or_introl eq_refl)). assert (P2 := HP b (or_intror Hb)).
    assert (b = a) as <- by nra. exact Hb.
  - apply IH; [exact Hd|]. intros w Hw. apply HP. right. exact Hw.
Qed.

(** ** Closed domains: the derivative part is real, symmetric and the same at all frequencies *)
Section Closed.
Variables (L0 : R) (Nx Ny : nat) (xr yr : R * R) (p : pol) (av : bool) (eps : rvec).
Hypotheses (HL : (0 < L0)%R) (HNx : 0 < Nx) (HNy : 0 < Ny) (Hx : (fst xr < snd xr)%R) (Hy : (fst yr < snd yr)%R)
  (He : forall k, k < Nx * Ny -> (0 < eps k)%R).
Notation M := (Nx * Ny).
Notation B := (derpart L0 Nx Ny (0, 0) xr yr p av (cvec eps) 1).
Definition mass (k : nat) : R := match p with PolEz => (EPSILON_0 * L0 * eps k)%R | PolHz => (MU_0 * L0)%R end.
Lemma massC_mass k : massC L0 p (cvec eps) k = RtoC (mass k).
Proof. unfold massC, mass, cvec. destruct p; [|reflexivity]. symmetry. apply RtoC_mult. Qed.
Lemma mass_pos k : k < M -> (0 < mass k)%R.
Proof.
  intro Hk. unfold mass. assert (H1 := EPSILON_0_pos). assert (H2 := MU_0_pos). assert (H3 := He k Hk).
  destruct p; [apply Rmult_lt_0_compat; [apply Rmult_lt_0_compat|]|apply Rmult_lt_0_compat]; assumption.
Qed.
Lemma derpart_same w r c : r < M -> derpart L0 Nx Ny (0, 0) xr yr p av (cvec eps) w r c = B r c.
Proof.
  intro Hr.
  assert (Hd : forall a s i j, i < M -> make_deriv a s w L0 Nx Ny (0,0) xr yr i j = make_deriv a s 1 L0 Nx Ny (0,0) xr yr i j).
  { intros a s i j Hi. rewrite !make_deriv_entry, !S_vec_no_pml by assumption. reflexivity. }
  unfold derpart. f_equal; unfold mm at 1 3; apply csum_ext; intros k Hk; rewrite !mm_diag_r by assumption; rewrite !Hd by assumption; reflexivity.
Qed.
Lemma derpart_entry r c : r < M -> c < M -> B r c =
  (fst (construct_A 1 xr yr Nx Ny (cvec eps) (0, 0) p L0 av) r c - (if Nat.eqb r c then RtoC (1 ^ 2) * massC L0 p (cvec eps) r else RtoC 0))%C.
Proof. intros Hr Hc. rewrite A_split by assumption. ring. Qed.
Lemma derpart_sym r c : r < M -> c < M -> B r c = B c r.
Proof.
  intros Hr Hc. rewrite !derpart_entry by assumption. f_equal.
  - apply A_sym_no_pml; try assumption. lra.
  - rewrite (Nat.eqb_sym r c). destruct (Nat.eqb_spec c r) as [->|]; reflexivity.
Qed.
Lemma derpart_real r c : r < M -> c < M -> Cconj (B r c) = B r c.
Proof.
  intros Hr Hc. rewrite !derpart_entry by assumption. rewrite Cconj_minus. f_equal.
  - apply A_real_no_pml; try assumption. intro j. apply Cconj_RtoC.
  - destruct (Nat.eqb r c); [|apply Cconj_RtoC]. rewrite massC_mass, Cconj_mult, !Cconj_RtoC. reflexivity.
Qed.
Lemma mv_A_closed w x r : r < M -> mv M (fst (construct_A w xr yr Nx Ny (cvec eps) (0, 0) p L0 av)) x r =
  (mv M B x r + RtoC (w ^ 2) * RtoC (mass r) * x r)%C.
Proof.
  intro Hr. rewrite mv_A_split by assumption. rewrite massC_mass.
  assert (Q : mv M (derpart L0 Nx Ny (0, 0) xr yr p av (cvec eps) w) x r = mv M B x r).
  { unfold mv. apply csum_ext. intros c Hc. rewrite derpart_same by assumption. reflexivity. }
  rewrite Q. reflexivity.
Qed.
Lemma closed_count (ls : list R) : NoDup ls -> (forall w, In w ls -> (0 < w)%R) ->
  (forall w, In w ls -> ~ nonsingular M (fst (construct_A w xr yr Nx Ny (cvec eps) (0, 0) p L0 av))) ->
  List.length ls <= M.
Proof.
  intros HND HP HS. rewrite <- (map_length (fun w => (w ^ 2)%R) ls).
  apply (eig_count M mass mass_pos B).
  - apply NoDup_squares; assumption.
  - apply derpart_sym.
  - apply derpart_real.
  - intros la Hla. apply in_map_iff in Hla. destruct Hla as (w & <- & Hw). specialize (HS w Hw).
    apply NNPP. intro Hno. apply HS. apply injective_nonsingular. intros x Hz j Hj.
    apply NNPP. intro Hne. apply Hno. exists x. split; [exists j; split; assumption|].
    intros r Hr. rewrite <- mv_A_closed by exact Hr. apply Hz; exact Hr.
Qed.
End Closed.

(** ** Plane waves of a periodic grid *)
Definition cis (t : R) : C := (cos t, sin t).
Lemma cis_plus a b : cis (a + b) = (cis a * cis b)%C.
Proof. unfold cis, Cmult. cbn [fst snd]. rewrite cos_plus, sin_plus. f_equal; ring. Qed.
Lemma cis_conj a : Cconj (cis a) = cis (- a).
Proof. unfold cis, Cconj. cbn [fst snd]. rewrite cos_neg, sin_neg. reflexivity. Qed.
Lemma cis_0 : cis 0 = RtoC 1.
Proof. unfold cis. rewrite cos_0, sin_0. reflexivity. Qed.
Lemma cis_period a k : cis (a + 2 * INR k * PI) = cis a.
Proof. unfold cis. rewrite cos_period, sin_period. reflexivity. Qed.
Lemma cis_neq1 t : (0 < t < 2 * PI)%R -> cis t <> RtoC 1.
Proof.
  intros Ht E. apply (f_equal Re) in E. cbn in E.
  assert (Q : (0 < sin (t / 2))%R) by (apply sin_gt_0; lra).
  assert (Q2 := cos_2a_sin (t / 2)). replace (2 * (t / 2))%R with t in Q2 by field. nra.
Qed.
Definition wave (N a i : nat) : C := cis (2 * PI * INR a * INR i / INR N).
Lemma wave_next N a i : i < N -> wave N a (next N i) = (cis (2 * PI * INR a / INR N) * wave N a i)%C.
Proof.
  intro Hi. assert (HN : (0 < INR N)%R) by (apply lt_0_INR; lia). unfold wave. rewrite <- cis_plus.
  destruct (Nat.eq_dec (S i) N) as [E|E].
  - assert (next N i = 0) as -> by (unfold next; try (destruct (Nat.eqb_spec (S i) N); lia); rewrite <- E; apply Nat.mod_same; lia).
    simpl (INR 0). replace (2 * PI * INR a * 0 / INR N)%R with 0%R by (field; lra).
    rewrite <- (cis_period 0 a). f_equal. rewrite <- E, S_INR in *. field. lra.
  - assert (next N i = S i) as -> by (unfold next; try (destruct (Nat.eqb_spec (S i) N); lia); rewrite Nat.mod_small; lia).
    f_equal. rewrite S_INR. field. lra.
Qed.
Lemma wave_prev N a i : i < N -> wave N a (prev N i) = (cis (- (2 * PI * INR a / INR N)) * wave N a i)%C.
Proof.
  intro Hi. assert (HP : prev N i < N) by (apply prev_lt; exact Hi).
  assert (E := wave_next N a (prev N i) HP). rewrite next_prev in E by exact Hi. rewrite E, Cmult_assoc, <- cis_plus.
  replace (- (2 * PI * INR a / INR N) + 2 * PI * INR a / INR N)%R with 0%R by ring. rewrite cis_0. ring.
Qed.
Lemma wave_sum N a i : i < N -> (wave N a (next N i) + wave N a (prev N i) - RtoC 2 * wave N a i)%C = (RtoC (- (4 * sin (PI * INR a / INR N) ^ 2)) * wave N a i)%C.
Proof.
  intro Hi. rewrite wave_next, wave_prev by exact Hi. rewrite <- cis_conj.
  assert (E : (cis (2 * PI * INR a / INR N) + Cconj (cis (2 * PI * INR a / INR N)) - RtoC 2 = RtoC (- (4 * sin (PI * INR a / INR N) ^ 2)))%C).
  { assert (Q := cos_2a_sin (PI * INR a / INR N)).
    replace (2 * (PI * INR a / INR N))%R with (2 * PI * INR a / INR N)%R in Q by (unfold Rdiv; ring).
    unfold cis, Cconj, RtoC, Cplus, Cminus, Copp. cbn [fst snd]. rewrite Q. apply injective_projections; unfold Cplus; cbn [fst snd]; ring. }
  rewrite <- E. ring.
Qed.
Lemma geom z n : ((z - RtoC 1) * csum n (fun k => pow_n z k) = pow_n z n - RtoC 1)%C.
Proof.
  induction n as [|n IH]; [cbn; unfold one; cbn; cring|]. cbn [csum]. rewrite Cmult_plus_distr_l, IH.
  change (pow_n z (S n)) with (z * pow_n z n)%C. generalize (pow_n z n : C). intro q. ring.
Qed.
Lemma pow_cis t n : pow_n (cis t) n = cis (INR n * t).
Proof.
  induction n as [|n IH]; [cbn [pow_n]; simpl (INR 0); rewrite Rmult_0_l, cis_0; reflexivity|].
  change (pow_n (cis t) (S n)) with (cis t * pow_n (cis t) n)%C. rewrite IH, <- cis_plus, S_INR. f_equal. ring.
Qed.
Lemma waves_orth N i i' : i < N -> i' < N ->
  csum N (fun a => (wave N a i * Cconj (wave N a i'))%C) = if Nat.eqb i i' then RtoC (INR N) else RtoC 0.
Proof.
  intros Hi Hi'. assert (HN : (0 < INR N)%R) by (apply lt_0_INR; lia).
  set (t := (2 * PI * (INR i - INR i') / INR N)%R).
  rewrite (csum_ext N _ (fun a => pow_n (cis t) a)).
  - destruct (Nat.eqb_spec i i') as [->|Hne].
    + rewrite (csum_ext N _ (fun _ => RtoC 1)).
      * rewrite csum_RtoC, rsum_const. f_equal. ring.
      * intros a _. rewrite pow_cis. unfold t. replace (INR a * (2 * PI * (INR i' - INR i') / INR N))%R with 0%R by (field; lra). apply cis_0.
    + assert (Hz : cis t <> RtoC 1).
      { assert (HPI := PI_RGT_0).
        assert (G : forall u v, u < N -> v < u -> cis (2 * PI * (INR u - INR v) / INR N) <> RtoC 1).
        { intros u v Hu Hv. apply cis_neq1. assert (Q1 := lt_INR _ _ Hv). assert (Q2 := lt_INR _ _ Hu). assert (Q3 := pos_INR v).
          split; [apply Rmult_lt_0_compat; [nra|apply Rinv_0_lt_compat; lra]|].
          apply (Rmult_lt_reg_r (INR N)); [lra|]. replace (2 * PI * (INR u - INR v) / INR N * INR N)%R with (2 * PI * (INR u - INR v))%R by (field; lra). nra. }
        destruct (Nat.lt_ge_cases i' i) as [Hlt|Hge]; [apply G; assumption|].
        intro E. apply (G i' i Hi'); [lia|].
        assert (Et : (2 * PI * (INR i' - INR i) / INR N = - t)%R) by (unfold t; field; lra).
        rewrite Et, <- cis_conj, E. apply Cconj_RtoC. }
      assert (Q := geom (cis t) N). rewrite pow_cis in Q.
      assert (E : cis (INR N * t) = RtoC 1).
      { assert (Et : (INR N * t = 2 * INR i * PI + - (2 * INR i' * PI))%R) by (unfold t; field; lra).
        rewrite Et, cis_plus, <- cis_conj.
        assert (Z : forall k, cis (2 * INR k * PI) = RtoC 1).
        { intro k. rewrite <- cis_0, <- (cis_period 0 k). f_equal. ring. }
        rewrite !Z, Cconj_RtoC. ring. }
      rewrite E in Q. destruct (Cmult_integral (cis t - RtoC 1)%C (csum N (fun k => pow_n (cis t) k))) as [Z|Z].
      * rewrite Q. ring.
      * exfalso. apply Hz. transitivity ((cis t - RtoC 1) + RtoC 1)%C; [ring|]. rewrite Z. ring.
      * exact Z.
  - intros a Ha. rewrite pow_cis. unfold wave. rewrite cis_conj, <- cis_plus. f_equal. unfold t. field. lra.
Qed.
Lemma fourier_zero N (y : nat -> C) : (forall a, a < N -> csum N (fun i => (Cconj (wave N a i) * y i)%C) = RtoC 0) ->
  forall i, i < N -> y i = RtoC 0.
Proof.
  intros H i Hi. assert (HN : (0 < INR N)%R) by (apply lt_0_INR; lia).
  assert (E : (RtoC (INR N) * y i)%C = RtoC 0).
  { transitivity (csum N (fun a => (wave N a i * csum N (fun i' => (Cconj (wave N a i') * y i')%C))%C)).
    - rewrite (csum_ext N (fun a => (wave N a i * _)%C) (fun a => csum N (fun i' => (wave N a i * Cconj (wave N a i') * y i')%C)))
        by (intros; rewrite <- csum_scal; apply csum_ext; intros; ring).
      rewrite csum_swap. rewrite (csum_single N i); [|exact Hi|].
      + rewrite csum_scal_r, waves_orth, Nat.eqb_refl by assumption. reflexivity.
      + intros k Hk Hne. rewrite csum_scal_r, waves_orth by assumption. destruct (Nat.eqb_spec i k); [congruence|ring].
    - apply csum_0. intros a Ha. rewrite H by exact Ha. ring. }
  destruct (Cmult_integral _ _ E) as [Z|Z]; [|exact Z]. apply RtoC_inj in Z. lra.
Qed.

Definition plane (Nx Ny a b : nat) : vec := fun k => (wave Nx a (k / Ny) * wave Ny b (k mod Ny))%C.
Lemma plane_pix Nx Ny a b i j : j < Ny -> plane Nx Ny a b (pix Ny i j) = (wave Nx a i * wave Ny b j)%C.
Proof. intro Hj. unfold plane, pix. rewrite flat_div, flat_mod by exact Hj. reflexivity. Qed.
Lemma plane_laplacian Nx Ny a b d i j : i < Nx -> j < Ny -> d <> 0%R ->
  laplacian d Nx Ny (plane Nx Ny a b) i j =
  (RtoC (- (4 * sin (PI * INR a / INR Nx) ^ 2 + 4 * sin (PI * INR b / INR Ny) ^ 2) / (d * d)) * plane Nx Ny a b (pix Ny i j))%C.
Proof.
  intros Hi Hj Hd. assert (HdC : RtoC (d * d) <> RtoC 0) by (apply RtoC_neq0; nra).
  unfold laplacian. rewrite !plane_pix by (try assumption; apply next_lt + apply prev_lt; assumption).
  assert (E1 := wave_sum Nx a i Hi). assert (E2 := wave_sum Ny b j Hj).
  set (sa := (4 * sin (PI * INR a / INR Nx) ^ 2)%R) in *. set (sb := (4 * sin (PI * INR b / INR Ny) ^ 2)%R) in *.
  set (u := wave Nx a i) in *. set (v := wave Ny b j) in *.
  transitivity (((wave Nx a (next Nx i) + wave Nx a (prev Nx i) - RtoC 2 * u) * v + u * (wave Ny b (next Ny j) + wave Ny b (prev Ny j) - RtoC 2 * v)) / RtoC (d * d))%C.
  - replace (RtoC 4) with (RtoC 2 + RtoC 2)%C by cring. field. exact HdC.
  - rewrite E1, E2, RtoC_div by nra. replace (- (sa + sb))%R with (- sa + - sb)%R by ring. rewrite RtoC_plus. field. exact HdC.
Qed.
(** the factor by which the matrix multiplies a plane wave in a uniform medium *)
Definition factor (p : pol) (L0 d e0 w : R) (Nx Ny a b : nat) : R :=
  let la := (- (4 * sin (PI * INR a / INR Nx) ^ 2 + 4 * sin (PI * INR b / INR Ny) ^ 2) / (d * d))%R in
  match p with
  | PolEz => (1 / (MU_0 * L0) * la + w ^ 2 * (EPSILON_0 * L0) * e0)%R
  | PolHz => (/ (EPSILON_0 * L0 * e0) * la + w ^ 2 * (MU_0 * L0))%R
  end.
Section Uniform.
Variables (L0 : R) (Nx Ny : nat) (xr yr : R * R) (p : pol) (av : bool) (eps : rvec) (d e0 w : R).
Hypotheses (HL : (0 < L0)%R) (HNx : 2 <= Nx) (HNy : 2 <= Ny) (Hx : (fst xr < snd xr)%R) (Hy : (fst yr < snd yr)%R)
  (Hd : dL Nx Ny xr yr = (d, d)) (Hd0 : (0 < d)%R) (H0 : (0 < e0)%R) (Hw : (0 < w)%R)
  (He : forall k, k < Nx * Ny -> eps k = e0).
Notation M := (Nx * Ny).
Notation A := (fst (construct_A w xr yr Nx Ny (cvec eps) (0, 0) p L0 av)).
Lemma eps_dir_uniform a i j : i < Nx -> j < Ny -> eps_dir a av L0 Nx Ny (cvec eps) (pix Ny i j) = RtoC (EPSILON_0 * L0 * e0).
Proof.
  intros Hi Hj. assert (Hk : pix Ny i j < M) by (apply flat_lt; assumption).
  assert (C2 : RtoC 2 <> RtoC 0) by (apply RtoC_neq0; lra).
  unfold eps_dir. destruct av; [|unfold cvec; rewrite He by exact Hk; rewrite <- RtoC_mult; reflexivity].
  assert (P1 := prev_lt Nx i Hi). assert (P2 := prev_lt Ny j Hj).
  assert (Q : forall k, k < M -> (RtoC (EPSILON_0 * L0) * cvec eps k = RtoC (EPSILON_0 * L0 * e0))%C)
    by (intros k Hkk; unfold cvec; rewrite He by exact Hkk; rewrite <- RtoC_mult; reflexivity).
  unfold grid_average. rewrite roll1_pix by assumption. rewrite (Q (pix Ny i j) Hk).
  replace (RtoC 2) with (RtoC 1 + RtoC 1)%C in * by cring.
  destruct a; (rewrite Q by (apply flat_lt; assumption); field; exact C2).
Qed.
Lemma A_plane a b i j : i < Nx -> j < Ny ->
  mv M A (plane Nx Ny a b) (pix Ny i j) = (RtoC (factor p L0 d e0 w Nx Ny a b) * plane Nx Ny a b (pix Ny i j))%C.
Proof.
  intros Hi Hj. assert (Hk : pix Ny i j < M) by (apply flat_lt; assumption).
  assert (HE := EPSILON_0_pos). assert (HMU := MU_0_pos).
  assert (LP := plane_laplacian Nx Ny a b d i j Hi Hj ltac:(lra)).
  assert (N1 := next_lt Nx i Hi). assert (N2 := next_lt Ny j Hj).
  unfold factor. destruct p.
  - rewrite (mv_construct_Ez_stencil w L0 Nx Ny xr yr (cvec eps) av d) by (assumption || lra).
    rewrite LP. unfold cvec. rewrite He by exact Hk. set (la := (_ / (d * d))%R).
    rewrite RtoC_plus, (RtoC_mult _ la), (RtoC_mult (w ^ 2 * (EPSILON_0 * L0))). ring.
  - assert (Q := mv_construct_Hz_stencil w L0 Nx Ny xr yr (cvec eps) av d (plane Nx Ny a b) i j HNx HNy Hi Hj Hd ltac:(lra)).
    cbv zeta in Q. rewrite Q. rewrite !eps_dir_uniform by assumption.
    assert (Hpos : (0 < EPSILON_0 * L0 * e0)%R) by (apply Rmult_lt_0_compat; [apply Rmult_lt_0_compat|]; assumption).
    set (la := (_ / (d * d))%R) in *. set (g := (EPSILON_0 * L0 * e0)%R) in *.
    rewrite RtoC_plus, (RtoC_mult _ la), RtoC_inv by lra.
    transitivity (/ RtoC g * laplacian d Nx Ny (plane Nx Ny a b) i j + RtoC (w ^ 2 * (MU_0 * L0)) * plane Nx Ny a b (pix Ny i j))%C.
    + unfold laplacian. replace (RtoC 4) with (RtoC 1 + RtoC 1 + RtoC 1 + RtoC 1)%C by cring.
      field. split; apply RtoC_neq0; nra.
    + rewrite LP. ring.
Qed.
Lemma factor_zero a b : factor p L0 d e0 w Nx Ny a b = 0%R <->
  (EPSILON_0 * MU_0 * e0 * (L0 * d) ^ 2 * w ^ 2 = 4 * sin (PI * INR a / INR Nx) ^ 2 + 4 * sin (PI * INR b / INR Ny) ^ 2)%R.
Proof.
  assert (HE := EPSILON_0_pos). assert (HMU := MU_0_pos). unfold factor.
  set (S4 := (4 * sin (PI * INR a / INR Nx) ^ 2 + 4 * sin (PI * INR b / INR Ny) ^ 2)%R). clearbody S4.
  assert (HD : (EPSILON_0 * L0 * e0 <> 0)%R) by (apply Rgt_not_eq; apply Rmult_lt_0_compat; [apply Rmult_lt_0_compat|]; assumption).
  assert (HMU2 : (MU_0 * L0 <> 0)%R) by (apply Rgt_not_eq; apply Rmult_lt_0_compat; assumption).
  revert HE HMU HD HMU2. generalize EPSILON_0 MU_0. intros E0 U0 HE HMU HD HMU2.
  destruct p.
  - assert (Q : (1 / (U0 * L0) * (- S4 / (d * d)) + w ^ 2 * (E0 * L0) * e0 = (E0 * U0 * e0 * (L0 * d) ^ 2 * w ^ 2 - S4) / (U0 * L0 * (d * d)))%R)
      by (field; repeat split; lra). rewrite Q. split; intro H.
    + assert (Z := f_equal (fun z => (z * (U0 * L0 * (d * d)))%R) H). cbv beta in Z. unfold Rdiv in Z. rewrite Rmult_assoc, Rinv_l in Z; [lra|]. apply Rmult_integral_contrapositive_currified; [exact HMU2|nra].
    + rewrite H. unfold Rdiv. ring.
  - assert (Q : (/ (E0 * L0 * e0) * (- S4 / (d * d)) + w ^ 2 * (U0 * L0) = (E0 * U0 * e0 * (L0 * d) ^ 2 * w ^ 2 - S4) / (E0 * L0 * e0 * (d * d)))%R)
      by (field; repeat split; lra). rewrite Q. split; intro H.
    + assert (Z := f_equal (fun z => (z * (E0 * L0 * e0 * (d * d)))%R) H). cbv beta in Z. unfold Rdiv in Z. rewrite Rmult_assoc, Rinv_l in Z; [lra|]. apply Rmult_integral_contrapositive_currified; [exact HD|nra].
    + rewrite H. unfold Rdiv. ring.
Qed.
Lemma herm u v : csum M (fun r => (Cconj (u r) * mv M A v r)%C) = Cconj (csum M (fun r => (Cconj (v r) * mv M A u r)%C)).
Proof.
  assert (HS : forall r c, r < M -> c < M -> A r c = A c r) by (intros; apply A_sym_no_pml; (assumption || lia)).
  assert (HR : forall r c, r < M -> c < M -> Cconj (A r c) = A r c) by (intros; apply A_real_no_pml; try assumption; intro; apply Cconj_RtoC).
  rewrite Cconj_csum. unfold mv.
  rewrite (csum_ext M _ (fun r => csum M (fun c => (Cconj (u r) * (A r c * v c))%C))) by (intros; rewrite <- csum_scal; reflexivity).
  rewrite csum_swap. apply csum_ext. intros c Hc. rewrite Cconj_mult, Cconj_csum, Cconj_invol, <- csum_scal.
  apply csum_ext. intros r Hr. rewrite Cconj_mult, HR, (HS r c) by assumption. ring.
Qed.
Lemma uniform_iff : nonsingular M A <-> forall a b, a < Nx -> b < Ny -> factor p L0 d e0 w Nx Ny a b <> 0%R.
Proof.
  split.
  - intros HN a b Ha Hb E.
    assert (Z : plane Nx Ny a b (pix Ny 0 0) = RtoC 0).
    { apply (nonsingular_injective M A _ HN); [|apply flat_lt; lia]. intros r Hr.
      destruct (pix_bound _ _ _ Hr) as (i & j & Hi & Hj & ->). rewrite A_plane, E by assumption. ring. }
    rewrite plane_pix in Z by lia. unfold wave in Z. simpl (INR 0) in Z.
    assert (K : forall y n, (2 * PI * y * 0 / INR n = 0)%R) by (intros; unfold Rdiv; ring). rewrite !K, cis_0 in Z.
    apply (f_equal Re) in Z. cbn in Z. lra.
  - intro HF. apply injective_nonsingular. intros x Hz.
    assert (HI : forall a b, a < Nx -> b < Ny -> csum M (fun r => (Cconj (plane Nx Ny a b r) * x r)%C) = RtoC 0).
    { intros a b Ha Hb. assert (E := herm (plane Nx Ny a b) x). rewrite csum_0 in E by (intros r Hr; rewrite Hz by exact Hr; ring).
      assert (E2 : csum M (fun r => (Cconj (x r) * mv M A (plane Nx Ny a b) r)%C) =
        (RtoC (factor p L0 d e0 w Nx Ny a b) * csum M (fun r => (Cconj (x r) * plane Nx Ny a b r)%C))%C).
      { rewrite <- csum_scal. apply csum_ext. intros r Hr. destruct (pix_bound _ _ _ Hr) as (i & j & Hi & Hj & ->).
        rewrite A_plane by assumption. ring. }
      rewrite E2, Cconj_mult, Cconj_RtoC, Cconj_csum in E. symmetry in E.
      destruct (Cmult_integral _ _ E) as [Z|Z]; [exfalso; apply (HF a b Ha Hb); apply RtoC_inj; exact Z|].
      rewrite <- Z. apply csum_ext. intros r Hr. rewrite Cconj_mult, Cconj_invol. ring. }
    assert (HX : forall i j, i < Nx -> j < Ny -> x (pix Ny i j) = RtoC 0).
    { intros i j Hi. revert j. apply (fourier_zero Ny (fun j => x (pix Ny i j))). intros b Hb. revert i Hi.
      apply (fourier_zero Nx (fun i => csum Ny (fun j => (Cconj (wave Ny b j) * x (pix Ny i j))%C))). intros a Ha.
      rewrite <- (HI a b Ha Hb), csum_flat. apply csum_ext. intros i Hi. rewrite <- csum_scal. apply csum_ext. intros j Hj.
      fold (pix Ny i j). rewrite plane_pix by exact Hj. rewrite Cconj_mult. ring. }
    intros r Hr. destruct (pix_bound _ _ _ Hr) as (i & j & Hi & Hj & ->). apply HX; assumption.
Qed.
End Uniform.
