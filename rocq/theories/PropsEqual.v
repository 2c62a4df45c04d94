(** C111: when two structures have the same system matrix. *)
From Coq Require Import Reals Lra Lia List ZArith Arith Bool String.
From Coquelicot Require Import Coquelicot.
From Verif Require Import Base Linear MCore MSim MEqual Spec PCore PSim PEx PropsCore PropsSolve PropsLin PropsGradHz.
Import ListNotations.
Local Open Scope nat_scope.

(* ------------------------------------------------------------------ *)
(** ** Specification *)

(** the sign of pixel (i,j) on a checkerboard *)
Definition checker (i j : nat) : R := ((-1) ^ (i + j))%R.
(** two structures differ by c times a checkerboard *)
Definition differ_by_checker (Nx Ny : nat) (c : R) (a b : nd R) : Prop :=
  forall i j, i < Nx -> j < Ny -> nd_buf a (pix Ny i j) = (nd_buf b (pix Ny i j) + c * checker i j)%R.
(** a structure for the simulation, with positive permittivity *)
Definition structure_of (s : sim) (a : nd R) : Prop :=
  nd_nx a = s_Nx s /\ nd_ny a = s_Ny s /\ forall k, k < s_M s -> (0 < nd_buf a k)%R.

(* ------------------------------------------------------------------ *)
(** ** is_equal *)

Lemma ne_nnz_0 n A B : ne_nnz n A B = 0 <-> forall i j, i < n -> j < n -> A i j = B i j.
Proof.
  unfold ne_nnz. rewrite List.length_zero_iff_nil. split.
  - intros H i j Hi Hj. destruct (Ceq_dec (A i j) (B i j)) as [E|E] eqn:ED; [exact E|]. exfalso.
    assert (List.In (i, j) (List.filter (fun ij => if Ceq_dec (A (fst ij) (snd ij)) (B (fst ij) (snd ij)) then false else true) (List.list_prod (List.seq 0 n) (List.seq 0 n)))) as HI.
    { apply List.filter_In. split; [apply List.in_prod; apply List.in_seq; lia|]. cbn [fst snd]. rewrite ED. reflexivity. }
    rewrite H in HI. exact HI.
  - intro H. destruct (List.filter _ _) as [|[i j] l] eqn:E; [reflexivity|]. exfalso.
    assert (HI : List.In (i, j) ((i, j) :: l)) by (left; reflexivity). rewrite <- E in HI. apply List.filter_In in HI as [HI HB].
    apply List.in_prod_iff in HI as [H1 H2]. apply List.in_seq in H1, H2. cbn [fst snd] in HB.
    destruct (Ceq_dec (A i j) (B i j)) as [|N]; [discriminate|]. apply N, H; lia.
Qed.

(** is_equal answers True exactly for matrices of the same size with the same entries, False
    when an entry differs, and raises when the sizes differ. *)
Theorem C111_is_equal : forall n1 A n2 B,
  (is_equal n1 A n2 B = Ok true <-> n1 = n2 /\ forall i j, i < n1 -> j < n1 -> A i j = B i j) /\
  (is_equal n1 A n2 B = Ok false <-> n1 = n2 /\ exists i j, i < n1 /\ j < n1 /\ A i j <> B i j) /\
  (is_equal n1 A n2 B = Raise AttributeError <-> n1 <> n2).
Proof.
  intros n1 A n2 B. unfold is_equal. destruct (Nat.eqb_spec n1 n2) as [<-|N].
  - assert (D : (forall i j, i < n1 -> j < n1 -> A i j = B i j) \/ exists i j, i < n1 /\ j < n1 /\ A i j <> B i j).
    { destruct (ne_nnz n1 A B) eqn:E; [left; apply ne_nnz_0, E|right]. unfold ne_nnz in E.
      destruct (List.filter _ _) as [|[i j] l] eqn:EF; [discriminate|]. assert (HI : List.In (i, j) ((i, j) :: l)) by (left; reflexivity). rewrite <- EF in HI. apply List.filter_In in HI as [HI HB].
      apply List.in_prod_iff in HI as [H1 H2]. apply List.in_seq in H1, H2. cbn [fst snd] in HB. exists i, j.
      destruct (Ceq_dec (A i j) (B i j)) as [|N]; [discriminate|]. repeat split; [lia|lia|exact N]. }
    destruct (Nat.eqb_spec (ne_nnz n1 A B) 0) as [E|E].
    + assert (E' := proj1 (ne_nnz_0 _ _ _) E). split; [split; auto|]. split; [|split; [discriminate|lia]]. split; [discriminate|]. intros (_ & i & j & Hi & Hj & Hn). exfalso. auto.
    + split; [split; [discriminate|intros [_ H]; exfalso; apply E, ne_nnz_0, H]|]. split; [|split; [discriminate|lia]]. split; [|auto].
      intros _. split; [reflexivity|]. destruct D as [D|D]; [exfalso; apply E, ne_nnz_0, D|exact D].
  - split; [split; [discriminate|intros [? _]; contradiction]|]. split; [split; [discriminate|intros [? _]; contradiction]|]. split; auto.
Qed.

(* ------------------------------------------------------------------ *)
(** ** Rows of the matrix for Hz, with absorbing layers *)
Section Rows.
Variables (omega L0 : R) (Nx Ny : nat) (NPML : nat * nat) (xr yr : R * R).
Notation dx := (fst (dL Nx Ny xr yr)).
Notation dy := (snd (dL Nx Ny xr yr)).
Notation SV w s := (S_vec w s omega L0 Nx Ny NPML xr yr).
Lemma hz_row (eps : vec) X i j : 2 <= Nx -> 2 <= Ny -> i < Nx -> j < Ny -> dx <> 0%R -> dy <> 0%R ->
  let vx a b := (/ eps_dir AxX true L0 Nx Ny eps (pix Ny a b) * (SV AxX Bwd (pix Ny a b) * ((X (pix Ny a b) - X (pix Ny (prev Nx a) b)) / RtoC dx)))%C in
  let vy a b := (/ eps_dir AxY true L0 Nx Ny eps (pix Ny a b) * (SV AxY Bwd (pix Ny a b) * ((X (pix Ny a b) - X (pix Ny a (prev Ny b))) / RtoC dy)))%C in
  mv (Nx * Ny) (fst (construct_A omega xr yr Nx Ny eps NPML PolHz L0 true)) X (pix Ny i j) =
  (SV AxX Fwd (pix Ny i j) * ((vx (next Nx i) j - vx i j) / RtoC dx) + SV AxY Fwd (pix Ny i j) * ((vy i (next Ny j) - vy i j) / RtoC dy)
   + RtoC (omega ^ 2 * (MU_0 * L0)) * X (pix Ny i j))%C.
Proof.
  intros HNx HNy Hi Hj Hdx Hdy vx vy. assert (Hk : pix Ny i j < Nx * Ny) by (apply flat_lt; assumption).
  rewrite mv_construct_Hz by assumption. cbv zeta. unfold make_derivs, Dxf, Dxb, Dyf, Dyb.
  rewrite !(make_deriv_mv _ _ _ _ _ _ _ _ Fwd) by assumption. rewrite Dxf_stencil, Dyf_stencil by assumption. unfold diff_xf, diff_yf.
  rewrite !make_deriv_mv by (unfold pix; apply flat_lt; (assumption || (apply next_lt; assumption))).
  rewrite !Dxb_stencil, !Dyb_stencil by (try assumption; apply next_lt; assumption). unfold diff_xb, diff_yb. reflexivity.
Qed.
Hypotheses (Ho : (0 < omega)%R) (HL : (0 < L0)%R) (Hx : (fst xr < snd xr)%R) (Hy : (fst yr < snd yr)%R) (HX3 : 3 <= Nx) (HY3 : 3 <= Ny).
Lemma Cinv_neq0 (z : C) : z <> RtoC 0 -> (/ z)%C <> RtoC 0.
Proof. intros H E. assert (Q := Cinv_r z H). rewrite E, Cmult_0_r in Q. apply RtoC_inj in Q. lra. Qed.
Lemma SV_neq0 w s k : SV w s k <> RtoC 0.
Proof.
  unfold S_vec. destruct w.
  - apply Cinv_neq0. apply sfactor_neq0; try assumption; lia.
  - apply Cinv_neq0. apply sfactor_neq0; try assumption; lia.
Qed.
Lemma dx_neq0 : dx <> 0%R.
Proof. unfold dL. cbn [fst]. apply Rgt_not_eq, Rdiv_lt_0_compat; [lra|apply lt_0_INR; lia]. Qed.
Lemma dy_neq0 : dy <> 0%R.
Proof. unfold dL. cbn [snd]. apply Rgt_not_eq, Rdiv_lt_0_compat; [lra|apply lt_0_INR; lia]. Qed.
Lemma pix_neq i j i' j' : j < Ny -> j' < Ny -> (i, j) <> (i', j') -> pix Ny i j <> pix Ny i' j'.
Proof.
  intros Hj Hj' N E. apply N. unfold pix in E. assert (i = i') by (destruct (Nat.lt_trichotomy i i') as [L|[L|L]]; [exfalso; nia|exact L|exfalso; nia]). subst. f_equal. lia.
Qed.
Notation unit q := (fun k : nat => if Nat.eqb k q then RtoC 1 else RtoC 0).
Lemma unit_at (q k : nat) : unit q k = if Nat.eqb k q then RtoC 1 else RtoC 0. Proof. reflexivity. Qed.
Lemma hz_entry_x (eps : vec) i j : i < Nx -> j < Ny ->
  mv (Nx * Ny) (fst (construct_A omega xr yr Nx Ny eps NPML PolHz L0 true)) (unit (pix Ny (next Nx i) j)) (pix Ny i j) =
  (SV AxX Fwd (pix Ny i j) * SV AxX Bwd (pix Ny (next Nx i) j) / (RtoC dx * RtoC dx) * / eps_dir AxX true L0 Nx Ny eps (pix Ny (next Nx i) j))%C.
Proof.
  intros Hi Hj. rewrite hz_row by (assumption || lia || apply dx_neq0 || apply dy_neq0). cbv zeta. rewrite !(prev_next Nx), !(prev_next Ny) by assumption.
  assert (Hp := prev_lt Ny j Hj). assert (Hn := next_lt Ny j Hj).
  assert (N1 : next Nx i <> i) by (unfold next; destruct (Nat.eqb_spec (S i) Nx); lia).
  assert (N2 : prev Nx i <> next Nx i) by (unfold next, prev; destruct (Nat.eqb_spec (S i) Nx); destruct i; lia).
  rewrite (proj2 (Nat.eqb_eq _ _) eq_refl).
  repeat (rewrite (proj2 (Nat.eqb_neq _ _)) by (apply pix_neq; try assumption; congruence)).
  assert (RtoC dx <> RtoC 0) by (apply RtoC_neq0, dx_neq0). assert (RtoC dy <> RtoC 0) by (apply RtoC_neq0, dy_neq0).
  replace (RtoC 0 - RtoC 0)%C with (RtoC 0) by ring. unfold Cdiv. replace (/ (RtoC dx * RtoC dx))%C with (/ RtoC dx * / RtoC dx)%C by (field; assumption). ring.
Qed.
Lemma hz_entry_y (eps : vec) i j : i < Nx -> j < Ny ->
  mv (Nx * Ny) (fst (construct_A omega xr yr Nx Ny eps NPML PolHz L0 true)) (unit (pix Ny i (next Ny j))) (pix Ny i j) =
  (SV AxY Fwd (pix Ny i j) * SV AxY Bwd (pix Ny i (next Ny j)) / (RtoC dy * RtoC dy) * / eps_dir AxY true L0 Nx Ny eps (pix Ny i (next Ny j)))%C.
Proof.
  intros Hi Hj. rewrite hz_row by (assumption || lia || apply dx_neq0 || apply dy_neq0). cbv zeta. rewrite !(prev_next Nx), !(prev_next Ny) by assumption.
  assert (Hp := prev_lt Ny j Hj). assert (Hn := next_lt Ny j Hj).
  assert (N1 : next Ny j <> j) by (unfold next; destruct (Nat.eqb_spec (S j) Ny); lia).
  assert (N2 : prev Ny j <> next Ny j) by (unfold next, prev; destruct (Nat.eqb_spec (S j) Ny); destruct j; lia).
  rewrite (proj2 (Nat.eqb_eq _ _) eq_refl).
  repeat (rewrite (proj2 (Nat.eqb_neq _ _)) by (apply pix_neq; try assumption; congruence)).
  assert (RtoC dx <> RtoC 0) by (apply RtoC_neq0, dx_neq0). assert (RtoC dy <> RtoC 0) by (apply RtoC_neq0, dy_neq0).
  replace (RtoC 0 - RtoC 0)%C with (RtoC 0) by ring. unfold Cdiv. replace (/ (RtoC dy * RtoC dy))%C with (/ RtoC dy * / RtoC dy)%C by (field; assumption). ring.
Qed.

(** equal matrices, equal averages *)
Lemma hz_averages (a b : rvec) :
  (forall k, k < Nx * Ny -> (0 < a k)%R) -> (forall k, k < Nx * Ny -> (0 < b k)%R) ->
  (forall r c, r < Nx * Ny -> c < Nx * Ny -> fst (construct_A omega xr yr Nx Ny (cvec a) NPML PolHz L0 true) r c = fst (construct_A omega xr yr Nx Ny (cvec b) NPML PolHz L0 true) r c) ->
  forall i j, i < Nx -> j < Ny ->
  (a (pix Ny (prev Nx i) j) + a (pix Ny i j) = b (pix Ny (prev Nx i) j) + b (pix Ny i j) /\
   a (pix Ny i (prev Ny j)) + a (pix Ny i j) = b (pix Ny i (prev Ny j)) + b (pix Ny i j))%R.
Proof.
  intros Ha Hb HE.
  assert (HV : forall X r, r < Nx * Ny -> mv (Nx * Ny) (fst (construct_A omega xr yr Nx Ny (cvec a) NPML PolHz L0 true)) X r = mv (Nx * Ny) (fst (construct_A omega xr yr Nx Ny (cvec b) NPML PolHz L0 true)) X r).
  { intros X r Hr. unfold mv. apply csum_ext. intros c Hc. rewrite HE by assumption. reflexivity. }
  assert (HEL : (0 < EPSILON_0 * L0)%R) by (apply Rmult_lt_0_compat; [exact EPSILON_0_pos|assumption]).
  assert (INV : forall w k (u v : C), k < Nx * Ny -> u <> RtoC 0 -> (u * / eps_dir w true L0 Nx Ny (cvec a) k = u * / eps_dir w true L0 Nx Ny (cvec b) k)%C ->
    (a (behind w Nx Ny k) + a k = b (behind w Nx Ny k) + b k)%R).
  { intros w k u _ Hk Hu E. rewrite !eps_dir_average in E. assert (HB := behind_lt w Nx Ny k Hk).
    assert (A1 := Ha _ Hk). assert (A2 := Ha _ HB). assert (B1 := Hb _ Hk). assert (B2 := Hb _ HB).
    assert (PA : (0 < EPSILON_0 * L0 * average w Nx Ny a k)%R) by (apply Rmult_lt_0_compat; [exact HEL|unfold average; lra]).
    assert (PB : (0 < EPSILON_0 * L0 * average w Nx Ny b k)%R) by (apply Rmult_lt_0_compat; [exact HEL|unfold average; lra]).
    assert (E2 : (/ RtoC (EPSILON_0 * L0 * average w Nx Ny a k) = / RtoC (EPSILON_0 * L0 * average w Nx Ny b k))%C).
    { apply (f_equal (fun z => (/ u * z)%C)) in E. rewrite !Cmult_assoc, Cinv_l, !Cmult_1_l in E by exact Hu. exact E. }
    rewrite <- !RtoC_inv in E2 by lra. apply RtoC_inj in E2. apply (f_equal Rinv) in E2. rewrite !Rinv_inv in E2.
    apply Rmult_eq_reg_l in E2; [|lra]. unfold average in E2. lra. }
  assert (NZ : forall w (d : R) p q, d <> 0%R -> (SV w Fwd p * SV w Bwd q / (RtoC d * RtoC d))%C <> RtoC 0).
  { intros w d p q Hd. unfold Cdiv. repeat apply Cmult_neq_0; try apply SV_neq0. apply Cinv_neq0, Cmult_neq_0; apply RtoC_neq0, Hd. }
  intros i j Hi Hj. split.
  - assert (Hp := prev_lt Nx i Hi). assert (E := HV (unit (pix Ny (next Nx (prev Nx i)) j)) (pix Ny (prev Nx i) j) ltac:(apply flat_lt; assumption)).
    rewrite !hz_entry_x in E by assumption. rewrite !next_prev in E by assumption.
    apply INV in E; [|exact (RtoC 0)|apply flat_lt; assumption|apply NZ, dx_neq0]. rewrite behind_pix in E by assumption. exact E.
  - assert (Hp := prev_lt Ny j Hj). assert (E := HV (unit (pix Ny i (next Ny (prev Ny j)))) (pix Ny i (prev Ny j)) ltac:(apply flat_lt; assumption)).
    rewrite !hz_entry_y in E by assumption. rewrite !next_prev in E by assumption.
    apply INV in E; [|exact (RtoC 0)|apply flat_lt; assumption|apply NZ, dy_neq0]. rewrite behind_pix in E by assumption. exact E.
Qed.
End Rows.

(* ------------------------------------------------------------------ *)
(** ** Checkerboards *)

Lemma checker_alternates (D : nat -> nat -> R) Nx Ny : 0 < Nx -> 0 < Ny ->
  (forall i j, i < Nx -> j < Ny -> (D (prev Nx i) j = - D i j /\ D i (prev Ny j) = - D i j)%R) ->
  (forall i j, i < Nx -> j < Ny -> D i j = (D O O * checker i j)%R) /\ ((Nat.even Nx && Nat.even Ny)%bool = true \/ D O O = 0%R).
Proof.
  intros HX HY H.
  assert (H1 : forall i j, i < Nx -> j < Ny -> D i j = (D O j * (-1) ^ i)%R).
  { induction i as [|i IH]; intros j Hi Hj; [simpl; ring|]. assert (Q := proj1 (H (S i) j Hi Hj)). cbn [prev] in Q. rewrite (IH j) in Q by lia. simpl. lra. }
  assert (H2 : forall j, j < Ny -> D O j = (D O O * (-1) ^ j)%R).
  { induction j as [|j IH]; intros Hj; [simpl; ring|]. assert (Q := proj2 (H O (S j) HX Hj)). cbn [prev] in Q. rewrite IH in Q by lia. simpl. lra. }
  split.
  - intros i j Hi Hj. rewrite H1, H2 by assumption. unfold checker. rewrite pow_add. ring.
  - assert (ODD : forall N, Nat.even N = false -> ((-1) ^ (N - 1))%R = 1%R).
    { intros N E. destruct N as [|N]; [discriminate|]. replace (S N - 1) with N by lia. rewrite Nat.even_succ in E. assert (E2 : Nat.even N = true) by (rewrite <- Nat.negb_odd, E; reflexivity).
      apply Nat.even_spec in E2 as [q ->]. rewrite pow_mult. replace ((-1) ^ 2)%R with 1%R by ring. apply pow1. }
    destruct (Nat.even Nx) eqn:EX; [destruct (Nat.even Ny) eqn:EY; [left; reflexivity|]|]; right.
    + assert (Q := proj2 (H O O HX HY)). cbn [prev] in Q. rewrite H2, (ODD Ny EY) in Q by lia. lra.
    + assert (Q := proj1 (H O O HX HY)). cbn [prev] in Q. rewrite H1, (ODD Nx EX) in Q by lia. lra.
Qed.
Lemma checker_prev_x Nx i j : Nat.even Nx = true -> i < Nx -> checker (prev Nx i) j = (- checker i j)%R.
Proof.
  intros E Hi. unfold checker, prev. destruct i as [|i]; [|simpl; ring]. rewrite !pow_add. destruct Nx as [|N]; [lia|]. replace (S N - 1) with N by lia.
  rewrite Nat.even_succ in E. apply Nat.odd_spec in E as [q ->]. rewrite pow_add, pow_mult. replace ((-1) ^ 2)%R with 1%R by ring. rewrite pow1. simpl. ring.
Qed.
Lemma checker_sym i j : checker i j = checker j i. Proof. unfold checker. f_equal. lia. Qed.
Lemma checker_prev_y Ny i j : Nat.even Ny = true -> j < Ny -> checker i (prev Ny j) = (- checker i j)%R.
Proof. intros E Hj. rewrite !(checker_sym i). apply checker_prev_x; assumption. Qed.

(** equal averages, equal matrices *)
Lemma hz_same_matrix omega L0 Nx Ny NPML xr yr (a b : rvec) :
  (forall i j, i < Nx -> j < Ny ->
    (a (pix Ny (prev Nx i) j) + a (pix Ny i j) = b (pix Ny (prev Nx i) j) + b (pix Ny i j) /\
     a (pix Ny i (prev Ny j)) + a (pix Ny i j) = b (pix Ny i (prev Ny j)) + b (pix Ny i j))%R) ->
  meq (Nx * Ny) (fst (construct_A omega xr yr Nx Ny (cvec a) NPML PolHz L0 true)) (fst (construct_A omega xr yr Nx Ny (cvec b) NPML PolHz L0 true)).
Proof.
  intro H. assert (HE : forall w k, k < Nx * Ny -> eps_dir w true L0 Nx Ny (cvec a) k = eps_dir w true L0 Nx Ny (cvec b) k).
  { intros w k Hk. rewrite !eps_dir_average. f_equal. f_equal. destruct (pix_bound _ _ _ Hk) as (i & j & Hi & Hj & ->). unfold average.
    rewrite behind_pix by assumption. destruct (H i j Hi Hj) as [A B]. destruct w; lra. }
  assert (HD : forall w, meq (Nx * Ny) (spdiags (fun k => / eps_dir w true L0 Nx Ny (cvec a) k)%C) (spdiags (fun k => / eps_dir w true L0 Nx Ny (cvec b) k)%C)).
  { intros w r c Hr Hc. unfold spdiags, mdiag. rewrite HE by assumption. reflexivity. }
  assert (RF : forall (A : mat), meq (Nx * Ny) A A) by (intros A r c _ _; reflexivity).
  intros r c Hr Hc. cbn [construct_A fst]. unfold mplus. f_equal. f_equal.
  - apply mm_ext; [apply mm_ext; [apply RF|apply HD]|apply RF|assumption|assumption].
  - apply mm_ext; [apply mm_ext; [apply RF|apply HD]|apply RF|assumption|assumption].
Qed.

(* ------------------------------------------------------------------ *)
(** ** C111 *)

Lemma set_eps_A s a : structure_of s a ->
  s_A (set_eps a s) = fst (construct_A (s_omega s) (s_xrange s) (s_yrange s) (s_Nx s) (s_Ny s) (cvec (nd_buf a)) (s_NPML s) (s_pol s) (s_L0 s) true) /\
  s_M (set_eps a s) = s_M s.
Proof. intros (A & B & _). unfold set_eps, s_M. cbn [s_A s_Nx s_Ny]. rewrite A, B. split; reflexivity. Qed.

(** Ez: the matrices of two structures are equal exactly when the structures are. *)
Theorem C111_Ez_structures_told_apart : forall s a b, physical s -> s_pol s = PolEz -> structure_of s a -> structure_of s b ->
  (is_equal (s_M (set_eps a s)) (s_A (set_eps a s)) (s_M (set_eps b s)) (s_A (set_eps b s)) = Ok true <->
   forall k, k < s_M s -> nd_buf a k = nd_buf b k).
Proof.
  intros s a b (HL & Ho & _) HP Ha Hb. destruct (set_eps_A s a Ha) as [EA MA]. destruct (set_eps_A s b Hb) as [EB MB].
  rewrite (proj1 (C111_is_equal _ _ _ _)), MA, MB, EA, EB, HP. cbn [construct_A fst]. unfold mplus, mscal, spdiags, mdiag.
  assert (HC : RtoC (s_omega s ^ 2) <> RtoC 0) by (apply RtoC_neq0, pow_nonzero; lra).
  assert (HEL : (0 < EPSILON_0 * s_L0 s)%R) by (apply Rmult_lt_0_compat; [exact EPSILON_0_pos|assumption]).
  assert (HE : RtoC (EPSILON_0 * s_L0 s) <> RtoC 0) by (apply RtoC_neq0; lra).
  split.
  - intros [_ H] k Hk. specialize (H k k Hk Hk). match type of H with (?u + ?v)%C = (_ + ?w)%C => assert (H' : v = w) by (apply (f_equal (fun z => (z - u)%C)) in H; replace (u + v - u)%C with v in H by ring; replace (u + w - u)%C with w in H by ring; exact H) end. clear H. rename H' into H. rewrite Nat.eqb_refl in H.
    assert (H2 : cvec (nd_buf a) k = cvec (nd_buf b) k).
    { apply (f_equal (fun z => (/ RtoC (EPSILON_0 * s_L0 s) * (/ RtoC (s_omega s ^ 2) * z))%C)) in H. 
      replace (/ RtoC (EPSILON_0 * s_L0 s) * (/ RtoC (s_omega s ^ 2) * (RtoC (s_omega s ^ 2) * (RtoC (EPSILON_0 * s_L0 s) * cvec (nd_buf a) k))))%C with (cvec (nd_buf a) k) in H by (field; auto).
      replace (/ RtoC (EPSILON_0 * s_L0 s) * (/ RtoC (s_omega s ^ 2) * (RtoC (s_omega s ^ 2) * (RtoC (EPSILON_0 * s_L0 s) * cvec (nd_buf b) k))))%C with (cvec (nd_buf b) k) in H by (field; auto). exact H. }
    unfold cvec in H2. apply RtoC_inj in H2. exact H2.
  - intro H. split; [reflexivity|]. intros i j Hi Hj. f_equal. f_equal. destruct (Nat.eqb_spec i j) as [<-|]; [|reflexivity]. unfold cvec. rewrite H by assumption. reflexivity.
Qed.

(** Hz: the matrices are equal exactly when the structures are equal or, on a grid with an even
    number of pixels in both directions, differ by a checkerboard. *)
Theorem C111_Hz_checkerboards : forall s a b, physical s -> s_pol s = PolHz -> 3 <= s_Nx s -> 3 <= s_Ny s -> structure_of s a -> structure_of s b ->
  (is_equal (s_M (set_eps a s)) (s_A (set_eps a s)) (s_M (set_eps b s)) (s_A (set_eps b s)) = Ok true <->
   exists c, differ_by_checker (s_Nx s) (s_Ny s) c a b /\ (c = 0%R \/ (Nat.Even (s_Nx s) /\ Nat.Even (s_Ny s)))).
Proof.
  intros s a b HPh HP HX HY Ha Hb. destruct (set_eps_A s a Ha) as [EA MA]. destruct (set_eps_A s b Hb) as [EB MB].
  rewrite (proj1 (C111_is_equal _ _ _ _)), MA, MB, EA, EB, HP. destruct HPh as (HL & Ho & Hxr & Hyr & _). destruct Ha as (_ & _ & Ha). destruct Hb as (_ & _ & Hb). split.
  - intros [_ H].
    assert (AV := hz_averages _ _ _ _ (s_NPML s) _ _ Ho HL Hxr Hyr HX HY _ _ Ha Hb H).
    destruct (checker_alternates (fun i j => nd_buf a (pix (s_Ny s) i j) - nd_buf b (pix (s_Ny s) i j))%R (s_Nx s) (s_Ny s) ltac:(lia) ltac:(lia)) as [D E].
    { intros i j Hi Hj. destruct (AV i j Hi Hj). split; lra. }
    exists (nd_buf a (pix (s_Ny s) 0 0) - nd_buf b (pix (s_Ny s) 0 0))%R. split.
    + intros i j Hi Hj. specialize (D i j Hi Hj). cbv beta in D. rewrite <- D. ring.
    + destruct E as [E|E]; [right|left; exact E]. apply andb_prop in E as [E1 E2]. split; apply Nat.even_spec; assumption.
  - intros (c & HD & HE). split; [reflexivity|]. apply hz_same_matrix. intros i j Hi Hj.
    assert (Hpx := prev_lt _ _ Hi). assert (Hpy := prev_lt _ _ Hj). rewrite !HD by assumption.
    destruct HE as [->|[E1 E2]]; [split; ring|]. apply Nat.even_spec in E1, E2. rewrite checker_prev_x, checker_prev_y by assumption. split; ring.
Qed.

(** When the matrices are equal the out-of-plane fields agree for every source, and the
    converse; for Hz the in-plane fields are then in inverse proportion to the permittivities. *)
Theorem C111_same_matrix_same_field : forall e s a b, solver_exact e -> physical s -> structure_of s a -> structure_of s b ->
  nonsingular (s_M s) (s_A (set_eps a s)) -> nonsingular (s_M s) (s_A (set_eps b s)) ->
  (is_equal (s_M (set_eps a s)) (s_A (set_eps a s)) (s_M (set_eps b s)) (s_A (set_eps b s)) = Ok true <->
   forall src s1 s2 x1 y1 z1 x2 y2 z2,
     solve_fields e false false (upd_src src (set_eps a s)) = (s1, Ok (x1, y1, z1)) ->
     solve_fields e false false (upd_src src (set_eps b s)) = (s2, Ok (x2, y2, z2)) ->
     forall k, k < s_M s -> z1 k = z2 k).
Proof.
  intros e s a b He HPh Ha Hb NA NB. destruct (set_eps_A s a Ha) as [_ MA]. destruct (set_eps_A s b Hb) as [_ MB].
  rewrite (proj1 (C111_is_equal _ _ _ _)), MA, MB.
  assert (SOL : forall src c s1 x1 y1 z1, s_M (set_eps c s) = s_M s -> nonsingular (s_M s) (s_A (set_eps c s)) -> solve_fields e false false (upd_src src (set_eps c s)) = (s1, Ok (x1, y1, z1)) ->
    solves (s_M s) (s_A (set_eps c s)) z1 (fun k => nd_buf src k * Ci * RtoC (s_omega s))%C).
  { intros src c s1 x1 y1 z1 MC NC H. apply solve_fields_ok in H as (_ & HX & _ & _). cbn [used_matrix] in HX.
    change (s_M (upd_src src (set_eps c s))) with (s_M (set_eps c s)) in HX. rewrite MC in HX.
    change (s_A (upd_src src (set_eps c s))) with (s_A (set_eps c s)) in HX. eapply solver_direct_correct; eassumption. }
  split.
  - intros [_ HE] src s1 s2 x1 y1 z1 x2 y2 z2 H1 H2. apply SOL in H1; [|assumption..]. apply SOL in H2; [|assumption..].
    apply (solves_unique _ _ _ _ _ NA H1). intros r Hr. rewrite <- (H2 r Hr). apply (mv_ext (s_M s)); [intros i j Hi Hj; apply HE; assumption|intros i Hi; reflexivity|exact Hr].
  - intro H. split; [reflexivity|]. intros i j Hi Hj.
    set (u := fun k : nat => if Nat.eqb k j then RtoC 1 else RtoC 0).
    assert (EU : forall A : mat, mv (s_M s) A u i = A i j).
    { intro A. unfold mv. rewrite (csum_single _ j) by (assumption || intros k Hk Hn; unfold u; rewrite (proj2 (Nat.eqb_neq _ _) Hn); ring). unfold u. rewrite Nat.eqb_refl. ring. }
    destruct HPh as (HL & Ho & _). assert (HO : RtoC (s_omega s) <> RtoC 0) by (apply RtoC_neq0; lra). assert (HI := Ci_neq0).
    set (src := mkNd (s_Nx s) (s_Ny s) (fun k => mv (s_M s) (s_A (set_eps a s)) u k / (Ci * RtoC (s_omega s)))%C).
    destruct (solve_fields_lin e false (upd_src src (set_eps a s))) as (z1 & _ & H1); [cbn [upd_src s_src]; change (s_M (upd_src src (set_eps a s))) with (s_M (set_eps a s)); rewrite MA; reflexivity|].
    destruct (solve_fields_lin e false (upd_src src (set_eps b s))) as (z2 & _ & H2); [cbn [upd_src s_src]; change (s_M (upd_src src (set_eps b s))) with (s_M (set_eps b s)); rewrite MB; reflexivity|].
    cbv zeta in H1, H2. assert (HZ := H src _ _ _ _ _ _ _ _ H1 H2). apply SOL in H1; [|assumption..]. apply SOL in H2; [|assumption..].
    assert (E1 : veq (s_M s) z1 u).
    { apply (solves_unique _ _ _ _ _ NA H1). intros r Hr. unfold src. cbn [nd_buf]. change (csum (s_M s) (fun c : nat => (s_A (set_eps a s) r c * u c)%C)) with (mv (s_M s) (s_A (set_eps a s)) u r). field. auto. }
    rewrite <- (EU (s_A (set_eps a s))), <- (EU (s_A (set_eps b s))).
    rewrite <- (mv_ext _ (s_A (set_eps b s)) (s_A (set_eps b s)) z2 u ltac:(intros ? ? _ _; reflexivity) ltac:(intros r Hr; rewrite <- HZ by exact Hr; apply E1, Hr) i Hi).
    transitivity (nd_buf src i * Ci * RtoC (s_omega s))%C; [unfold src; cbn [nd_buf]; field; auto|symmetry; exact (H2 i Hi)].
Qed.

(** In Hz, with equal matrices, permittivity times in-plane field is the same in both structures. *)
Theorem C111_Hz_in_plane_fields : forall e s a b src s1 s2 x1 y1 z1 x2 y2 z2,
  solver_exact e -> physical s -> s_pol s = PolHz -> structure_of s a -> structure_of s b ->
  nonsingular (s_M s) (s_A (set_eps a s)) -> nonsingular (s_M s) (s_A (set_eps b s)) ->
  is_equal (s_M (set_eps a s)) (s_A (set_eps a s)) (s_M (set_eps b s)) (s_A (set_eps b s)) = Ok true ->
  solve_fields e false false (upd_src src (set_eps a s)) = (s1, Ok (x1, y1, z1)) ->
  solve_fields e false false (upd_src src (set_eps b s)) = (s2, Ok (x2, y2, z2)) ->
  forall k, k < s_M s -> (RtoC (nd_buf a k) * x1 k = RtoC (nd_buf b k) * x2 k /\ RtoC (nd_buf a k) * y1 k = RtoC (nd_buf b k) * y2 k)%C.
Proof.
  intros e s a b src s1 s2 x1 y1 z1 x2 y2 z2 He HPh HP Ha Hb NA NB HE H1 H2 k Hk.
  assert (HZ := proj1 (C111_same_matrix_same_field e s a b He HPh Ha Hb NA NB) HE src _ _ _ _ _ _ _ _ H1 H2).
  destruct (set_eps_A s a Ha) as [_ MA]. destruct (set_eps_A s b Hb) as [_ MB].
  apply solve_fields_ok in H1 as (_ & _ & D1 & _). apply solve_fields_ok in H2 as (_ & _ & D2 & _).
  cbn [used_eps] in D1, D2. unfold derived_fields in D1, D2. cbn [upd_src s_pol] in D1, D2.
  change (s_pol (set_eps a s)) with (s_pol s) in D1. change (s_pol (set_eps b s)) with (s_pol s) in D2. rewrite HP in D1, D2.
  change (s_M (upd_src src (set_eps a s))) with (s_M (set_eps a s)) in D1. change (s_M (upd_src src (set_eps b s))) with (s_M (set_eps b s)) in D2. rewrite MA in D1. rewrite MB in D2.
  destruct Ha as (A1 & A2 & Ha). destruct Hb as (B1 & B2 & Hb).
  assert (DE : s_derivs (upd_src src (set_eps a s)) = s_derivs (upd_src src (set_eps b s))) by (cbn; rewrite A1, A2, B1, B2; destruct (s_pol s); reflexivity).
  rewrite DE in D1. injection D1 as -> ->. injection D2 as -> ->. set (D := s_derivs _) in *.
  destruct HPh as (HL & Ho & _). assert (HEL : (0 < EPSILON_0 * s_L0 s)%R) by (apply Rmult_lt_0_compat; [exact EPSILON_0_pos|assumption]).
  assert (HE1 : RtoC (EPSILON_0 * s_L0 s) <> RtoC 0) by (apply RtoC_neq0; lra).
  assert (PA := Ha k Hk). assert (PB := Hb k Hk). assert (QA : RtoC (nd_buf a k) <> RtoC 0) by (apply RtoC_neq0; lra). assert (QB : RtoC (nd_buf b k) <> RtoC 0) by (apply RtoC_neq0; lra).
  assert (HO : RtoC (s_omega s) <> RtoC 0) by (apply RtoC_neq0; lra). assert (HI := Ci_neq0).
  unfold vscal. rewrite !mv_mm. unfold spdiags. rewrite !mv_diag by assumption. unfold eps_dir.
  rewrite !(mv_ext_v _ _ z1 z2) by (intros r Hr; apply HZ, Hr).
  change (s_epsC (upd_src src (set_eps a s)) k) with (RtoC (nd_buf a k)). change (s_epsC (upd_src src (set_eps b s)) k) with (RtoC (nd_buf b k)).
  cbn [upd_src set_eps s_L0 s_omega]. split; field; auto.
Qed.

(** A concrete case: 4 x 4 pixels in polarization Hz. Permittivity 2 everywhere cannot be told
    from 1 and 3 in turn, whatever the source. *)
Definition eq_flat : nd R := mkNd 4 4 (fun _ => 2%R).
Definition eq_board : nd R := mkNd 4 4 (fun k => 2 - checker (k / 4) (k mod 4))%R.
Lemma checker_pm i j : checker i j = 1%R \/ checker i j = (-1)%R.
Proof. unfold checker. induction (i + j) as [|n [IH|IH]]; [left; reflexivity|right|left]; simpl; rewrite IH; ring. Qed.
Example C111_met : exists s, physical s /\ s_pol s = PolHz /\ s_Nx s = 4 /\ s_Ny s = 4 /\ structure_of s eq_flat /\ structure_of s eq_board /\
  nd_buf eq_flat 0 <> nd_buf eq_board 0 /\ differ_by_checker 4 4 1 eq_flat eq_board /\
  is_equal (s_M (set_eps eq_flat s)) (s_A (set_eps eq_flat s)) (s_M (set_eps eq_board s)) (s_A (set_eps eq_board s)) = Ok true /\
  nonsingular (s_M s) (s_A (set_eps eq_flat s)) /\ nonsingular (s_M s) (s_A (set_eps eq_board s)).
Proof.
  destruct (PExOpt.fam_sim_ok "Hz"%string 4 4 0 0 (fun _ => 2%R) (or_intror eq_refl)) as [s H0].
  assert (HF := Simulation_fields _ _ _ _ _ _ _ H0).
  destruct HF as (E1 & E2 & E3 & E4 & E5 & E6 & E7 & E8 & P1 & P2 & E9 & _ & EP & _).
  cbn [nd_nx nd_ny] in *. specialize (E9 _ _ eq_refl). rewrite !Nat2Z.id in E9. specialize (EP eq_refl).
  assert (HM : s_M s = 16) by (unfold s_M; rewrite E3, E4; reflexivity).
  assert (HP : physical s) by (unfold physical; rewrite E1, E2, E3, E4, E6, E7; cbn [fst snd INR]; assert (W := ex_omega_pos); repeat split; try lra; try lia).
  assert (SA : structure_of s eq_flat) by (split; [symmetry; exact E3|]; split; [symmetry; exact E4|]; intros k _; cbn [eq_flat nd_buf]; lra).
  assert (SB : structure_of s eq_board) by (split; [symmetry; exact E3|]; split; [symmetry; exact E4|]; intros k _; cbn [eq_board nd_buf]; destruct (checker_pm (k / 4) (k mod 4)) as [-> | ->]; lra).
  assert (HD : differ_by_checker 4 4 1 eq_flat eq_board).
  { intros i j Hi Hj. cbn [eq_flat eq_board nd_buf]. unfold pix. rewrite Nat.div_add_l, (Nat.div_small j 4), Nat.add_0_r by lia.
    replace ((i * 4 + j) mod 4) with j; [ring|]. rewrite Nat.add_comm, Nat.mod_add, Nat.mod_small by lia. reflexivity. }
  assert (HE : is_equal (s_M (set_eps eq_flat s)) (s_A (set_eps eq_flat s)) (s_M (set_eps eq_board s)) (s_A (set_eps eq_board s)) = Ok true).
  { apply C111_Hz_checkerboards; try assumption; try lia. exists 1%R. rewrite E3, E4. split; [exact HD|]. right. split; exists 2; reflexivity. }
  assert (NA : nonsingular (s_M s) (s_A (set_eps eq_flat s))).
  { destruct (set_eps_A s eq_flat SA) as [-> _]. rewrite EP, HM, E1, E2, E3, E4, E6, E7, E9. assert (Q := EPSILON_0_pos).
    change 16 with (4 * 4). apply (Hz_nonsingular ex_omega 1 4 4 _ _ (nd_buf eq_flat) true 1%R (/ EPSILON_0)%R); try lra; try lia.
    - apply dL_new; lia.
    - left. apply Rinv_0_lt_compat. exact Q.
    - intros k Hk. rewrite !eps_dir_average. unfold average, eq_flat. cbn [nd_buf]. rewrite <- !RtoC_inv_all, !Cmod_R.
      assert (HQ : (0 < EPSILON_0 * 1 * ((2 + 2) / 2))%R) by lra. rewrite Rabs_pos_eq by (left; apply Rinv_0_lt_compat; exact HQ).
      assert (HR : (/ (EPSILON_0 * 1 * ((2 + 2) / 2)) <= / EPSILON_0)%R) by (apply Rinv_le_contravar; lra). split; exact HR.
    - assert (W := ex_omega_sq). apply (Rmult_lt_reg_l EPSILON_0); [exact Q|].
      replace (EPSILON_0 * (8 * / EPSILON_0))%R with 8%R by (field; lra).
      replace (EPSILON_0 * (ex_omega ^ 2 * (MU_0 * 1) * (1 * 1)))%R with (ex_omega ^ 2 * (EPSILON_0 * MU_0))%R by ring. lra. }
  assert (NB : nonsingular (s_M s) (s_A (set_eps eq_board s))).
  { apply (proj1 (C111_is_equal _ _ _ _)) in HE. destruct HE as [_ HE]. destruct (set_eps_A s eq_flat SA) as [_ M1]. rewrite M1 in HE.
    apply (nonsingular_ext _ (s_A (set_eps eq_flat s))); [exact HE|exact NA]. }
  exists s. repeat (split; [assumption|]). split; [|repeat split; assumption].
  cbn [eq_flat eq_board nd_buf]. change (0 / 4) with 0. change (0 mod 4) with 0. unfold checker. simpl. lra.
Qed.
