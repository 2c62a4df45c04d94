(** C106: when a simulation has exactly one field for every source. *)
From Coq Require Import Reals Lra Lia List ZArith Arith Bool String Classical.
From Coquelicot Require Import Coquelicot.
From Verif Require Import Base Linear MCore MSim Spec PCore PSim PEx PExOpt PropsCore PropsNl PropsSolve PSolv.
Import ListNotations.
Local Open Scope nat_scope.

(** exactly one field for every right-hand side of the system of equations *)
Definition one_field (s : sim) : Prop := forall b : vec, exists X, solves (s_M s) (s_A s) X b /\
  forall Y, solves (s_M s) (s_A s) Y b -> forall k, k < s_M s -> Y k = X k.
(** every pixel has a positive permittivity *)
Definition positive (eps : nd R) : Prop := forall k, k < nd_size eps -> (0 < nd_buf eps k)%R.

Lemma one_field_iff s : one_field s <-> nonsingular (s_M s) (s_A s).
Proof.
  split; intro H.
  - apply injective_nonsingular. intros x Hx j Hj. destruct (H vzero) as (X & HX & HU).
    assert (S0 : solves (s_M s) (s_A s) vzero vzero) by (intros r Hr; apply mv_zero).
    assert (S1 : solves (s_M s) (s_A s) x vzero) by (intros r Hr; apply Hx; exact Hr).
    rewrite (HU x S1 j Hj), <- (HU vzero S0 j Hj). reflexivity.
  - intro b. exists (exact_solver (s_M s) (s_A s) b).
    assert (HS : solves (s_M s) (s_A s) (exact_solver (s_M s) (s_A s) b) b) by (apply exact_solver_correct; exact H).
    split; [exact HS|]. intros Y HY k Hk. exact (solves_unique _ _ _ _ _ H HY HS k Hk).
Qed.
Lemma Simulation_matrix w eps dl np p L0 s : Simulation w eps dl np p L0 = Ok s -> exists px py,
  np = Some [px; py] /\ s_M s = nd_nx eps * nd_ny eps /\ (0 < w)%R /\ (0 < L0)%R /\
  s_A s = fst (construct_A w (0, INR (nd_nx eps) * dl)%R (0, INR (nd_ny eps) * dl)%R (nd_nx eps) (nd_ny eps) (cvec (nd_buf eps))
    (Z.to_nat px, Z.to_nat py) (if String.eqb p "Ez" then PolEz else PolHz) L0 true).
Proof.
  unfold Simulation, check_inputs. destruct (Rlt_dec 0 L0); [|discriminate]. destruct (Rlt_dec 0 w); [|discriminate].
  destruct np as [[|a [|b [|]]]|]; cbn [andb]; try discriminate.
  destruct (Z.leb 0 a && Z.leb 0 b)%bool; [|discriminate]. destruct (String.eqb p "Ez" || String.eqb p "Hz")%bool; [|discriminate].
  intro H. injection H as <-. exists a, b. repeat split; assumption.
Qed.
Lemma side_pos n dl : 0 < n -> (0 < dl)%R -> (0 < INR n * dl)%R.
Proof. intros Hn Hd. apply Rmult_lt_0_compat; [apply lt_0_INR; exact Hn|exact Hd]. Qed.

(** All frequencies but finitely many have exactly one field for every source, whatever the
    permittivity (positive), the polarization and the PML. *)
Theorem C106_almost_every_frequency :
  forall eps dl NPML p L0, (0 < dl)%R -> positive eps ->
  exists resonances : list R, forall omega s,
    Simulation omega eps dl NPML p L0 = Ok s -> ~ In omega resonances -> one_field s.
Proof.
  intros eps dl NPML p L0 Hdl Hpos.
  destruct (Nat.eq_dec (nd_nx eps * nd_ny eps) 0) as [H0|H0].
  { exists []. intros w s H _ b. destruct (Simulation_matrix _ _ _ _ _ _ _ H) as (px & py & _ & HM & _).
    exists vzero. rewrite HM, H0. split; [intros r Hr; lia|intros; lia]. }
  destruct (Rlt_dec 0 L0) as [HL|HL].
  2:{ exists []. intros w s H _. destruct (Simulation_matrix _ _ _ _ _ _ _ H) as (px & py & _ & _ & _ & HL0 & _). contradiction. }
  assert (HNx : 0 < nd_nx eps) by (destruct (nd_nx eps); lia).
  assert (HNy : 0 < nd_ny eps) by (destruct (nd_ny eps); lia).
  destruct NPML as [[|px [|py [|]]]|]; try (exists []; intros w s H _; destruct (Simulation_matrix _ _ _ _ _ _ _ H) as (? & ? & E & _); discriminate E).
  destruct (A_almost_always L0 (nd_nx eps) (nd_ny eps) (Z.to_nat px, Z.to_nat py) (0, INR (nd_nx eps) * dl)%R (0, INR (nd_ny eps) * dl)%R HL HNx HNy
    (side_pos _ _ HNx Hdl) (side_pos _ _ HNy Hdl) (if String.eqb p "Ez" then PolEz else PolHz) true (cvec (nd_buf eps))) as [l Hl].
  { intros k Hk. rewrite massC_mass. apply RtoC_neq0. apply Rgt_not_eq.
    apply (mass_pos L0 (nd_nx eps) (nd_ny eps)); try assumption. }
  exists l. intros w s H Hn. destruct (Simulation_matrix _ _ _ _ _ _ _ H) as (qx & qy & E & HM & Hw & _ & EA).
  injection E as <- <-. apply one_field_iff. rewrite EA, HM. apply Hl; assumption.
Qed.

(** Without PML there are at most as many exceptions as pixels. *)
Theorem C106_closed_domain :
  forall eps dl p L0 (resonances : list R), (0 < dl)%R -> positive eps -> NoDup resonances ->
  (forall omega, In omega resonances -> exists s, Simulation omega eps dl (Some [0; 0]%Z) p L0 = Ok s /\ ~ one_field s) ->
  List.length resonances <= nd_size eps.
Proof.
  intros eps dl p L0 ls Hdl Hpos HND H.
  destruct ls as [|w0 ls0] eqn:El; [cbn; lia|]. rewrite <- El in *.
  destruct (H w0) as (s0 & H0 & N0); [rewrite El; left; reflexivity|].
  destruct (Simulation_matrix _ _ _ _ _ _ _ H0) as (px & py & _ & HM & _ & HL & _).
  assert (HMp : s_M s0 <> 0).
  { intro E. apply N0. intro b. exists vzero. rewrite E. split; [intros r Hr; lia|intros; lia]. }
  assert (HNx : 0 < nd_nx eps) by (destruct (nd_nx eps); lia).
  assert (HNy : 0 < nd_ny eps) by (destruct (nd_ny eps); lia).
  apply (closed_count L0 (nd_nx eps) (nd_ny eps) (0, INR (nd_nx eps) * dl)%R (0, INR (nd_ny eps) * dl)%R (if String.eqb p "Ez" then PolEz else PolHz) true (nd_buf eps) HL HNx HNy
    (side_pos _ _ HNx Hdl) (side_pos _ _ HNy Hdl) Hpos ls HND).
  - intros w Hw. destruct (H w Hw) as (s & Hs & _). destruct (Simulation_matrix _ _ _ _ _ _ _ Hs) as (? & ? & _ & _ & P & _). exact P.
  - intros w Hw. destruct (H w Hw) as (s & Hs & Hn). destruct (Simulation_matrix _ _ _ _ _ _ _ Hs) as (qx & qy & E & HMs & _ & _ & EA).
    injection E as <- <-. intro HNs. apply Hn. apply one_field_iff. rewrite EA, HMs. exact HNs.
Qed.

(** In a uniform medium without PML the exceptions are exactly the frequencies of the plane waves
    that fit the grid: with refractive index n, (omega n dl / c)^2 = 4 sin^2(pi a/Nx) + 4 sin^2(pi b/Ny). *)
Theorem C106_uniform_medium :
  forall omega eps dl p L0 s e0, Simulation omega eps dl (Some [0; 0]%Z) p L0 = Ok s -> (0 < dl)%R ->
  2 <= nd_nx eps -> 2 <= nd_ny eps -> (0 < e0)%R -> (forall k, k < nd_size eps -> nd_buf eps k = e0) ->
  (one_field s <-> forall a b, a < nd_nx eps -> b < nd_ny eps ->
     (EPSILON_0 * MU_0 * e0 * (L0 * dl) ^ 2 * omega ^ 2 <>
      4 * sin (PI * INR a / INR (nd_nx eps)) ^ 2 + 4 * sin (PI * INR b / INR (nd_ny eps)) ^ 2)%R).
Proof.
  intros w eps dl p L0 s e0 H Hdl HNx HNy He0 Hu.
  destruct (Simulation_matrix _ _ _ _ _ _ _ H) as (px & py & E & HM & Hw & HL & EA). injection E as <- <-.
  rewrite one_field_iff, EA, HM.
  assert (PNx : 0 < nd_nx eps) by lia. assert (PNy : 0 < nd_ny eps) by lia.
  assert (HD : dL (nd_nx eps) (nd_ny eps) (0, INR (nd_nx eps) * dl)%R (0, INR (nd_ny eps) * dl)%R = (dl, dl)) by (apply dL_new; lia).
  rewrite (uniform_iff L0 (nd_nx eps) (nd_ny eps) (0, INR (nd_nx eps) * dl)%R (0, INR (nd_ny eps) * dl)%R (if String.eqb p "Ez" then PolEz else PolHz) true (nd_buf eps) dl e0 w HL HNx HNy
    (side_pos _ _ PNx Hdl) (side_pos _ _ PNy Hdl) HD Hdl He0 Hw Hu).
  split; intros Q a b Ha Hb.
  - intro Z. apply (Q a b Ha Hb). apply factor_zero; assumption.
  - intro Z. apply (Q a b Ha Hb). apply (factor_zero L0 (nd_nx eps) (nd_ny eps) (if String.eqb p "Ez" then PolEz else PolHz)); assumption.
Qed.

(** Hence not every simulation that can be constructed has a field: the wave that changes sign
    from pixel to pixel resonates. *)
Theorem C106_every_frequency_refuted :
  ~ (forall omega eps dl NPML p L0 s, Simulation omega eps dl NPML p L0 = Ok s -> (0 < dl)%R -> positive eps -> one_field s).
Proof.
  intro H. assert (HE := EPSILON_0_pos). assert (HMU := MU_0_pos).
  assert (HP : (0 < EPSILON_0 * MU_0)%R) by (apply Rmult_lt_0_compat; assumption).
  set (w := (2 / sqrt (EPSILON_0 * MU_0))%R). assert (HS := sqrt_lt_R0 _ HP).
  assert (Hw : (0 < w)%R) by (apply Rmult_lt_0_compat; [lra|apply Rinv_0_lt_compat; exact HS]).
  set (eps := mkNd 2 2 (fun _ => 1%R)).
  assert (Hs : exists s, Simulation w eps 1 (Some [0; 0]%Z) "Ez" 1 = Ok s).
  { unfold Simulation, check_inputs. destruct (Rlt_dec 0 1); [|lra]. destruct (Rlt_dec 0 w); [|contradiction]. eexists. reflexivity. }
  destruct Hs as [s Hs].
  assert (HO := H _ _ _ _ _ _ _ Hs ltac:(lra) ltac:(intros k Hk; cbn; lra)).
  assert (Q := proj1 (C106_uniform_medium w eps 1 "Ez" 1 s 1 Hs ltac:(lra) ltac:(cbn; lia) ltac:(cbn; lia) ltac:(lra) ltac:(reflexivity)) HO 1 0 ltac:(cbn; lia) ltac:(cbn; lia)).
  apply Q. cbn [nd_nx nd_ny eps]. simpl (INR 0). simpl (INR 1). simpl (INR 2).
  replace (PI * 1 / (1 + 1))%R with (PI / 2)%R by (unfold Rdiv; lra). replace (PI * 0 / (1 + 1))%R with 0%R by (unfold Rdiv; ring).
  rewrite sin_PI2, sin_0.
  assert (Ew : (w ^ 2 = 4 / (EPSILON_0 * MU_0))%R).
  { unfold w. rewrite <- (sqrt_sqrt (EPSILON_0 * MU_0)) at 2 by lra. field. lra. }
  rewrite Ew. revert HP. generalize (EPSILON_0 * MU_0)%R. intros q Hq. field. lra.
Qed.

(** Where there is one field, it does not depend on the library that solves the equations. *)
Theorem C106_libraries_agree :
  forall e1 e2 s av s1 s2 a1 b1 F1 a2 b2 F2, solver_exact e1 -> solver_exact e2 -> one_field s ->
  solve_fields e1 false av s = (s1, Ok (a1, b1, F1)) -> solve_fields e2 false av s = (s2, Ok (a2, b2, F2)) ->
  forall k, k < s_M s -> F1 k = F2 k.
Proof.
  intros e1 e2 s av s1 s2 a1 b1 F1 a2 b2 F2 E1 E2 HO H1 H2 k Hk. apply one_field_iff in HO.
  assert (Q1 := solve_fields_solves e1 false av s s1 a1 b1 F1 E1 HO H1).
  assert (Q2 := solve_fields_solves e2 false av s s2 a2 b2 F2 E2 HO H2).
  exact (solves_unique _ _ _ _ _ HO Q1 Q2 k Hk).
Qed.

(** A structure of two materials, with a PML on one axis, meets the hypotheses. *)
Example C106_met : let eps := mkNd 4 3 (fun k => if Nat.ltb k 5 then 2%R else 1%R) in
  positive eps /\ exists omega s, Simulation omega eps 1 (Some [1; 0]%Z) "Hz" 1 = Ok s /\ one_field s.
Proof.
  intro eps.
  assert (HP : positive eps) by (intros k Hk; unfold eps; cbn [nd_buf]; destruct (Nat.ltb k 5); lra). split; [exact HP|].
  destruct (C106_almost_every_frequency eps 1 (Some [1; 0]%Z) "Hz" 1 ltac:(lra) HP) as [l Hl].
  set (w := (1 + fold_right (fun x acc => Rabs x + acc) 0 l)%R).
  assert (G : forall l', (0 <= fold_right (fun x acc => Rabs x + acc) 0 l')%R /\ forall x, In x l' -> (x <= fold_right (fun x acc => Rabs x + acc) 0 l')%R).
  { induction l' as [|y l' [I1 I2]]; cbn [fold_right]; [split; [lra|intros x []]|]. assert (A1 := Rabs_pos y). assert (A2 := Rle_abs y).
    split; [lra|]. intros x [E|Hx]; [subst x; lra|]. specialize (I2 x Hx). lra. }
  destruct (G l) as [G1 G2].
  assert (Hw : (0 < w)%R) by (unfold w; lra).
  assert (Hs : exists s, Simulation w eps 1 (Some [1; 0]%Z) "Hz" 1 = Ok s).
  { unfold Simulation, check_inputs. destruct (Rlt_dec 0 1); [|lra]. destruct (Rlt_dec 0 w); [|contradiction]. eexists. reflexivity. }
  destruct Hs as [s Hs]. exists w, s. split; [exact Hs|]. apply (Hl w s Hs). intro Hi. specialize (G2 w Hi). unfold w in G2. lra.
Qed.
