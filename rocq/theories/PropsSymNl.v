(** C107: symmetries of the nonlinear solutions: a Kerr device moved around the periodic domain, with its
    axes exchanged or mirrored, has the moved nonlinear fields, found in the same number of iterations. *)
From Coq Require Import Reals Lra Lia List ZArith Arith Bool String.
From Coquelicot Require Import Coquelicot.
From Verif Require Import Base Linear MCore MSim Spec PCore PSim PEx PropsCore PropsSolve PropsNl PropsIter PSym PropsSym PropsUnit PropsLin PropsPower PSymNl.
Import ListNotations.
Local Open Scope nat_scope.

(** ** The specification *)

(** two ways in which arrays of any kind of number correspond *)
Definition array_relation := forall T : Type, (nat -> T) -> (nat -> T) -> Prop.
(** the same Kerr media, with corresponding regions *)
Definition same_media (Rel : array_relation) (l1 l2 : list nonlin) : Prop :=
  Forall2 (fun q1 q2 => nl_chi q2 = nl_chi q1 /\ nl_eps_scale q2 = nl_eps_scale q1 /\ nl_eps_max q2 = nl_eps_max q1 /\
    Rel R (nl_region q1) (nl_region q2)) l1 l2.
(** permittivity, source and media correspond *)
Definition same_device_up_to (Rel : array_relation) (s1 s2 : sim) : Prop :=
  Rel R (nd_buf (s_eps s1)) (nd_buf (s_eps s2)) /\ Rel C (nd_buf (s_src s1)) (nd_buf (s_src s2)) /\ same_media Rel (s_nl s1) (s_nl s2).
(** no field has been computed yet *)
Definition fresh (s : sim) : Prop := s_fields s (pol_comp (s_pol s)) = None.
(** every linear system the solvers may meet has exactly one solution *)
Definition regular (s : sim) : Prop :=
  nonsingular (s_M s) (s_A s) /\ (forall F, nonsingular (s_M s) (nl_matrix s F)) /\
  (s_pol s = PolEz -> forall E, widely_injective (s_M s) (nl_jac11 s E) (nl_jac12 s E)).
(** Whenever a nonlinear solver succeeds on [s1], from a given starting field or none, it succeeds on [s2]
    from the corresponding one, records the same convergences, and returns the corresponding primary field;
    [other] relates the other two components.  The refractive index shift corresponds as well, and so do the
    exact solutions of the nonlinear equation. *)
Definition same_nonlinear_behaviour (e : env) (Rel : array_relation) (other : vec * vec -> vec * vec -> Prop) (s1 s2 : sim) : Prop :=
  (forall av E1 E2 name thr m s1' F1 conv,
     match E1, E2 with None, None => True | Some v1, Some v2 => Rel C v1 v2 | _, _ => False end ->
     name = "born"%string \/ name = "newton"%string \/ name = "hybrid"%string ->
     solve_fields_nl e av E1 name thr m s1 = (s1', Ok (F1, conv)) ->
     exists s2' F2, solve_fields_nl e av E2 name thr m s2 = (s2', Ok (F2, conv)) /\
       Rel C (snd F1) (snd F2) /\ other (fst F1) (fst F2)) /\
  (forall s1' v1, compute_index_shift e s1 = (s1', Ok v1) ->
     exists s2' v2, compute_index_shift e s2 = (s2', Ok v2) /\ Rel R v1 v2) /\
  (forall X1 X2, Rel C X1 X2 -> (nonlinear_solution s2 X2 <-> nonlinear_solution s1 X1)).

(** ** Proofs *)
Definition facE (s : sim) (w : axis) (eps : vec) (k : nat) : C :=
  match s_pol s with
  | PolEz => (/ RtoC (MU_0 * s_L0 s))%C
  | PolHz => (- / eps_dir w false (s_L0 s) (s_Nx s) (s_Ny s) eps k)%C
  end.
Lemma derived_grid e s eps X : reachable e s -> (0 < s_Nx s) -> (0 < s_Ny s) -> forall i j, i < s_Nx s -> j < s_Ny s ->
  fst (derived_fields s eps false X) (pix (s_Ny s) i j) = (- RtoC 1 / Ci / RtoC (s_omega s) * facE s AxY eps (pix (s_Ny s) i j) * spy s Bwd (fun c => X (pix (s_Ny s) i c)) j)%C /\
  snd (derived_fields s eps false X) (pix (s_Ny s) i j) = (RtoC 1 / Ci / RtoC (s_omega s) * facE s AxX eps (pix (s_Ny s) i j) * spx s Bwd (fun c => X (pix (s_Ny s) c j)) i)%C.
Proof.
  intros HR HNx HNy i j Hi Hj.
  assert (HP := reachable_physical e s HR HNx HNy). destruct (sd_neq0 s HP) as [Hdx Hdy].
  destruct (consistent_A s (reachable_consistent e s HR)) as [EA ED].
  unfold facE, spx, spy, sdx, sdy, derived_fields.
  assert (Hk: (pix (s_Ny s) i j < s_Nx s * s_Ny s)%nat) by (apply flat_lt; assumption).
  assert (Gx := DDx_grid (s_omega s) (s_L0 s) (s_Nx s) (s_Ny s) (s_NPML s) (s_xrange s) (s_yrange s) Hdx Bwd X i j Hi Hj).
  assert (Gy := DDy_grid (s_omega s) (s_L0 s) (s_Nx s) (s_Ny s) (s_NPML s) (s_xrange s) (s_yrange s) Hdy Bwd X i j Hi Hj).
  rewrite ED. cbn [make_derivs Dxb Dyb]. unfold s_M. 
  destruct (s_pol s); cbn [fst snd]; unfold vscal.
  - rewrite Gx, Gy. unfold Cdiv. split; ring.
  - unfold spdiags. rewrite !mv_mm, !mv_diag by assumption. rewrite Gx, Gy. unfold Cdiv. split; ring.
Qed.
Lemma media_coef (Rel : array_relation) l1 l2 k k' x :
  (forall v1 v2, Rel R v1 v2 -> v2 k' = v1 k) -> same_media Rel l1 l2 -> kerr_coef l2 k' x = kerr_coef l1 k x.
Proof.
  intros H HM. unfold kerr_coef. induction HM as [|q1 q2 l1 l2 (E1 & E2 & E3 & E4) HM IH]; cbn [fold_right]; [reflexivity|].
  rewrite IH, E1, (H _ _ E4). unfold nl_scale. rewrite E2, E3. reflexivity.
Qed.
(** from a renumbering to the behaviour *)
Lemma behaviour_of e (Rel : array_relation) (other : vec * vec -> vec * vec -> Prop) (f g : nat -> nat) s1 s2 :
  renumber (s_M s1) (s_M s2) f g -> (forall T v1 v2, Rel T v1 v2 <-> forall k, k < s_M s1 -> v2 (f k) = v1 k) ->
  solver_exact e -> real_solver_exact e ->
  s_omega s2 = s_omega s1 -> s_pol s2 = s_pol s1 -> s_L0 s2 = s_L0 s1 -> moved (s_M s1) (s_M s2) f g (s_A s1) (s_A s2) ->
  same_device_up_to Rel s1 s2 -> nd_size (s_src s1) = s_M s1 -> nd_size (s_src s2) = s_M s2 ->
  fresh s1 -> fresh s2 -> regular s1 ->
  (forall eps1 eps2 X1 X2, Rel C eps1 eps2 -> Rel C X1 X2 -> other (derived_fields s1 eps1 false X1) (derived_fields s2 eps2 false X2)) ->
  same_nonlinear_behaviour e Rel other s1 s2.
Proof.
  intros HRn HRel He Hre E1 E2 E3 HA (D1 & D2 & D3) S1 S2 F1 F2 (N1 & N2 & N3) HD.
  assert (U : mov_rel (s_M s1) (s_M s2) f g other s1 s2).
  { constructor; try assumption; try reflexivity.
    - exact (proj1 (HRel R _ _) D1).
    - intros k x Hk. apply (media_coef Rel); [|exact D3]. intros v1 v2 Hv. exact (proj1 (HRel R v1 v2) Hv k Hk).
    - exact (proj1 (HRel C _ _) D2).
    - intros. apply HD; apply (proj2 (HRel C _ _)); assumption. }
  assert (G : mgood (s_M s1) (s_M s2) f g other s1 s2).
  { constructor; try assumption. unfold fresh in F1, F2. rewrite E2 in F2. rewrite F1, F2. exact I. }
  split; [|split].
  - intros av E4 E5 name thr m s1' Fa conv HE Hn H.
    destruct (mv_solve_fields_nl (s_M s1) (s_M s2) f g other HRn e He Hre s1 s2 E4 E5 name thr m av s1' Fa conv G) as (s2' & Fb & Q & T & _); try assumption.
    { unfold mest_rel. destruct E4; destruct E5; try contradiction; [exact (proj1 (HRel C _ _) HE)|exact I]. }
    exists s2', Fb. split; [exact Q|]. split; [apply (proj2 (HRel C _ _)); apply T|apply T].
  - intros s1' v1 H. destruct (mv_index_shift (s_M s1) (s_M s2) f g other HRn e He Hre s1 s2 s1' v1 G H) as (s2' & v2 & Q & T).
    exists s2', v2. split; [exact Q|]. exact (proj2 (HRel R _ _) T).
  - intros X1 X2 HX. apply (mv_solutions (s_M s1) (s_M s2) f g other HRn s1 s2); [exact U|]. exact (proj1 (HRel C _ _) HX).
Qed.

(** *** translation *)
Section Grid.
Variables (e : env) (s1 s2 : sim).
Hypothesis (HR1 : reachable e s1) (HR2 : reachable e s2) (HNx : 0 < s_Nx s1) (HNy : 0 < s_Ny s1).
Notation Nx := (s_Nx s1). Notation Ny := (s_Ny s1).
Lemma rel_of (P : nat -> nat -> nat) (f : nat -> nat) (T : Type) (v1 v2 : nat -> T) :
  (forall i j, j < Ny -> f (pix Ny i j) = P i j) ->
  ((forall i j, i < Nx -> j < Ny -> v2 (P i j) = v1 (pix Ny i j)) <-> (forall k, k < s_M s1 -> v2 (f k) = v1 k)).
Proof.
  intro Hf. split.
  - intros H k Hk. destruct (pix_bound _ _ _ Hk) as (i & j & Hi & Hj & ->). rewrite Hf by exact Hj. apply H; assumption.
  - intros H i j Hi Hj. rewrite <- Hf by exact Hj. apply H. apply flat_lt; assumption.
Qed.
Lemma translation_moved da db : s_NPML s1 = (0, 0) -> same_grid s1 s2 ->
  moved_by Nx Ny da db (nd_buf (s_eps s1)) (nd_buf (s_eps s2)) ->
  moved (s_M s1) (s_M s1) (fun k => pix Ny (sh Nx da (k / Ny)) (sh Ny db (k mod Ny)))
    (fun k => pix Ny (sh Nx (Nx - da mod Nx) (k / Ny)) (sh Ny (Ny - db mod Ny) (k mod Ny))) (s_A s1) (s_A s2).
Proof.
  intros HN0 (G1 & G2 & G3 & G4 & G5 & G6 & G7 & G8) Heps.
  destruct (consistent_A s1 (reachable_consistent e s1 HR1)) as [EA1 _].
  destruct (consistent_A s2 (reachable_consistent e s2 HR2)) as [EA2 _].
  assert (HP1 := reachable_physical e s1 HR1 HNx HNy). destruct (sd_neq0 s1 HP1) as [Hdx Hdy].
  rewrite G1, G2, G3, G4, G5, G6, G7, G8 in EA2.
  assert (HepsC: moved_by (s_Nx s1) (s_Ny s1) da db (s_epsC s1) (s_epsC s2)).
  { intros i j Hi Hj. unfold s_epsC, cvec. rewrite (Heps i j Hi Hj). reflexivity. }
  set (f := fun k => pix Ny (sh Nx da (k / Ny)) (sh Ny db (k mod Ny))).
  set (g := fun k => pix Ny (sh Nx (Nx - da mod Nx) (k / Ny)) (sh Ny (Ny - db mod Ny) (k mod Ny))).
  assert (HRen: renumber (Nx * Ny) (Nx * Ny) f g) by (apply renumber_sh; assumption).
  assert (Hf: forall i j, (j < Ny)%nat -> f (pix Ny i j) = pix Ny (sh Nx da i) (sh Ny db j)).
  { intros i j Hj. unfold f, pix. rewrite flat_div, flat_mod by assumption. reflexivity. }
  assert (Hg: forall i j, (i < Nx)%nat -> (j < Ny)%nat -> g (pix Ny (sh Nx da i) (sh Ny db j)) = pix Ny i j).
  { intros i j Hi Hj. rewrite <- Hf by assumption. apply HRen. apply flat_lt; assumption. }
  intros x k Hk. destruct (pix_bound _ _ _ Hk) as (i & j & Hi & Hj & ->). unfold s_M.
  rewrite Hf, EA1, EA2, HN0 by assumption.
  rewrite !A_grid by (try apply sh_lt; assumption).
  cbn [fst snd]. rewrite !pax_no_pml.
  assert (Hgx: forall c r, (c < Nx)%nat -> (r < Ny)%nat -> Ax_g (s_L0 s1) Nx Ny (s_pol s1) true (s_epsC s2) (pix Ny (sh Nx da c) (sh Ny db r))
     = Ax_g (s_L0 s1) Nx Ny (s_pol s1) true (s_epsC s1) (pix Ny c r)).
  { intros. unfold Ax_g. destruct (s_pol s1); [reflexivity|]. rewrite (eps_dir_sh AxX true _ Nx Ny (s_epsC s1)) by assumption. reflexivity. }
  assert (Hgy: forall c r, (c < Nx)%nat -> (r < Ny)%nat -> Ay_g (s_L0 s1) Nx Ny (s_pol s1) true (s_epsC s2) (pix Ny (sh Nx da c) (sh Ny db r))
     = Ay_g (s_L0 s1) Nx Ny (s_pol s1) true (s_epsC s1) (pix Ny c r)).
  { intros. unfold Ay_g. destruct (s_pol s1); [reflexivity|]. rewrite (eps_dir_sh AxY true _ Nx Ny (s_epsC s1)) by assumption. reflexivity. }
  f_equal; [f_equal|].
  - apply ax_sh; [assumption|]. intros c Hc. rewrite Hgx by assumption. f_equal. rewrite !pax_no_pml.
    apply ax_sh; [assumption|]. intros c' Hc'. rewrite Hg by assumption. reflexivity.
  - apply ax_sh; [assumption|]. intros c Hc. rewrite Hgy by assumption. f_equal. rewrite !pax_no_pml.
    apply ax_sh; [assumption|]. intros c' Hc'. rewrite Hg by assumption. reflexivity.
  - rewrite Hg by assumption. f_equal. unfold Ad_g. destruct (s_pol s1); [|reflexivity]. do 2 f_equal. apply HepsC; assumption.
Qed.
Lemma translation_derived da db eps1 eps2 X1 X2 : s_NPML s1 = (0, 0) -> same_grid s1 s2 ->
  moved_by Nx Ny da db eps1 eps2 -> moved_by Nx Ny da db X1 X2 ->
  moved_by Nx Ny da db (fst (derived_fields s1 eps1 false X1)) (fst (derived_fields s2 eps2 false X2)) /\
  moved_by Nx Ny da db (snd (derived_fields s1 eps1 false X1)) (snd (derived_fields s2 eps2 false X2)).
Proof.
  intros HN0 (G1 & G2 & G3 & G4 & G5 & G6 & G7 & G8) HE HX.
  assert (HNx2: (0 < s_Nx s2)%nat) by (rewrite G5; exact HNx). assert (HNy2: (0 < s_Ny s2)%nat) by (rewrite G6; exact HNy).
  split; intros i j Hi Hj; destruct (derived_grid e s1 eps1 X1 HR1 HNx HNy i j Hi Hj) as [Da1 Db1];
    (destruct (derived_grid e s2 eps2 X2 HR2 HNx2 HNy2 (sh Nx da i) (sh Ny db j)) as [Da2 Db2]; [rewrite G5; apply sh_lt; exact HNx|rewrite G6; apply sh_lt; exact HNy|]);
    change ((i + da) mod Nx)%nat with (sh Nx da i); change ((j + db) mod Ny)%nat with (sh Ny db j); rewrite G6 in Da2, Db2.
  - rewrite Da1, Da2. unfold facE, spy, sdy. rewrite G1, G2, G3, G4, G5, G6, G7, G8, HN0. f_equal; [f_equal|].
    + destruct (s_pol s1); [reflexivity|]. rewrite (eps_dir_sh AxY false _ Nx Ny eps1) by assumption. reflexivity.
    + cbn [snd]. rewrite !pax_no_pml. apply ax_sh; [assumption|]. intros c Hc. apply HX; assumption.
  - rewrite Db1, Db2. unfold facE, spx, sdx. rewrite G1, G2, G3, G4, G5, G6, G7, G8, HN0. f_equal; [f_equal|].
    + destruct (s_pol s1); [reflexivity|]. rewrite (eps_dir_sh AxX false _ Nx Ny eps1) by assumption. reflexivity.
    + cbn [fst]. rewrite !pax_no_pml. apply ax_sh; [assumption|]. intros c Hc. apply HX; assumption.
Qed.
(** *** exchange of the axes *)
Lemma exchange_moved : axes_exchanged s1 s2 -> transpose_of Nx Ny (nd_buf (s_eps s1)) (nd_buf (s_eps s2)) ->
  moved (s_M s1) (Ny * Nx) (fun k => pix Nx (k mod Ny) (k / Ny)) (fun q => pix Ny (q mod Nx) (q / Nx)) (s_A s1) (s_A s2).
Proof.
  intros (G1 & G2 & G3 & G4 & G5 & G6 & G7 & G8) Heps.
  destruct (consistent_A s1 (reachable_consistent e s1 HR1)) as [EA1 _].
  destruct (consistent_A s2 (reachable_consistent e s2 HR2)) as [EA2 _].
  assert (HP1 := reachable_physical e s1 HR1 HNx HNy). destruct (sd_neq0 s1 HP1) as [Hdx Hdy].
  rewrite G1, G2, G3, G4, G5, G6, G7, G8 in EA2.
  assert (HepsC: transpose_of (s_Nx s1) (s_Ny s1) (s_epsC s1) (s_epsC s2)).
  { intros i j Hi Hj. unfold s_epsC, cvec. rewrite (Heps i j Hi Hj). reflexivity. }
  unfold sdx, sdy, dL in Hdx, Hdy; cbn [fst snd] in Hdx, Hdy.
  set (f := fun k => pix Nx (k mod Ny) (k / Ny)). set (g := fun q => pix Ny (q mod Nx) (q / Nx)).
  assert (Hf: forall i j, (j < Ny)%nat -> f (pix Ny i j) = pix Nx j i).
  { intros i j Hj. unfold f, pix. rewrite flat_div, flat_mod by assumption. reflexivity. }
  assert (Hg: forall i j, (i < Nx)%nat -> g (pix Nx j i) = pix Ny i j).
  { intros i j Hi. unfold g, pix. rewrite flat_div, flat_mod by assumption. reflexivity. }
  intros x k Hk. destruct (pix_bound _ _ _ Hk) as (i & j & Hi & Hj & ->). unfold s_M.
  rewrite Hf, EA1, EA2 by assumption.
  rewrite !A_grid by assumption. unfold dL. cbn [fst snd].
  rewrite (Cplus_comm (pax Fwd (s_omega s1) (s_L0 s1) (s_xrange s1) _ _ _ _ _)).
  f_equal; [f_equal|].
  - apply pax_ext; [assumption|]. intros c Hc. f_equal.
    + unfold Ax_g, Ay_g. destruct (s_pol s1); [reflexivity|]. rewrite (eps_dir_swap_x true _ Nx Ny (s_epsC s1)) by assumption. reflexivity.
    + apply pax_ext; [assumption|]. intros c' Hc'. rewrite Hg by assumption. reflexivity.
  - apply pax_ext; [assumption|]. intros c Hc. f_equal.
    + unfold Ax_g, Ay_g. destruct (s_pol s1); [reflexivity|]. rewrite (eps_dir_swap_y true _ Nx Ny (s_epsC s1)) by assumption. reflexivity.
    + apply pax_ext; [assumption|]. intros c' Hc'. rewrite Hg by assumption. reflexivity.
  - rewrite Hg by assumption. f_equal. unfold Ad_g. destruct (s_pol s1); [|reflexivity]. do 2 f_equal. apply HepsC; assumption.
Qed.
Lemma exchange_derived eps1 eps2 X1 X2 : axes_exchanged s1 s2 -> transpose_of Nx Ny eps1 eps2 -> transpose_of Nx Ny X1 X2 ->
  transpose_of Nx Ny (fun k => - snd (derived_fields s1 eps1 false X1) k)%C (fst (derived_fields s2 eps2 false X2)) /\
  transpose_of Nx Ny (fun k => - fst (derived_fields s1 eps1 false X1) k)%C (snd (derived_fields s2 eps2 false X2)).
Proof.
  intros (G1 & G2 & G3 & G4 & G5 & G6 & G7 & G8) HE HX.
  assert (HNx2: (0 < s_Nx s2)%nat) by (rewrite G5; exact HNy). assert (HNy2: (0 < s_Ny s2)%nat) by (rewrite G6; exact HNx).
  split; intros i j Hi Hj; destruct (derived_grid e s1 eps1 X1 HR1 HNx HNy i j Hi Hj) as [Da1 Db1];
    (destruct (derived_grid e s2 eps2 X2 HR2 HNx2 HNy2 j i) as [Da2 Db2]; [rewrite G5; exact Hj|rewrite G6; exact Hi|]);
    rewrite G6 in Da2, Db2.
  - rewrite Db1, Da2. unfold facE, spx, spy, sdx, sdy. rewrite G1, G2, G3, G4, G5, G6, G7, G8. unfold dL. cbn [fst snd].
    rewrite (pax_ext _ _ _ _ _ Nx _ (fun c => X2 (pix Nx j c)) (fun c => X1 (pix Ny c j))) by (try assumption; intros; apply HX; assumption).
    destruct (s_pol s1); [unfold Cdiv; ring|]. rewrite (eps_dir_swap_y false _ Nx Ny eps1) by assumption. unfold Cdiv; ring.
  - rewrite Da1, Db2. unfold facE, spx, spy, sdx, sdy. rewrite G1, G2, G3, G4, G5, G6, G7, G8. unfold dL. cbn [fst snd].
    rewrite (pax_ext _ _ _ _ _ Ny _ (fun c => X2 (pix Nx c i)) (fun c => X1 (pix Ny i c))) by (try assumption; intros; apply HX; assumption).
    destruct (s_pol s1); [unfold Cdiv; ring|]. rewrite (eps_dir_swap_x false _ Nx Ny eps1) by assumption. unfold Cdiv; ring.
Qed.
(** *** reflection *)
Lemma mirror_x_moved : s_NPML s1 = (0, 0) -> same_grid s1 s2 -> mirrored_x Nx Ny (nd_buf (s_eps s1)) (nd_buf (s_eps s2)) ->
  let f := fun k => pix Ny (mir Nx (k / Ny)) (k mod Ny) in moved (s_M s1) (s_M s1) f f (s_A s1) (s_A s2).
Proof.
  intros HN0 (G1 & G2 & G3 & G4 & G5 & G6 & G7 & G8) Heps f.
  destruct (consistent_A s1 (reachable_consistent e s1 HR1)) as [EA1 _].
  destruct (consistent_A s2 (reachable_consistent e s2 HR2)) as [EA2 _].
  assert (HP1 := reachable_physical e s1 HR1 HNx HNy). destruct (sd_neq0 s1 HP1) as [Hdx Hdy].
  rewrite G1, G2, G3, G4, G5, G6, G7, G8 in EA2.
  assert (HepsC: mirrored_x Nx Ny (s_epsC s1) (s_epsC s2)).
  { intros i j Hi Hj. unfold s_epsC, cvec. rewrite (Heps i j Hi Hj). reflexivity. }
  assert (Hf: forall i j, (j < Ny)%nat -> f (pix Ny i j) = pix Ny (mir Nx i) j).
  { intros i j Hj. unfold f, pix. rewrite flat_div, flat_mod by assumption. reflexivity. }
  assert (Hg: forall i j, (i < Nx)%nat -> (j < Ny)%nat -> f (pix Ny (mir Nx i) j) = pix Ny i j).
  { intros i j Hi Hj. rewrite Hf by assumption. rewrite mir_mir by assumption. reflexivity. }
  intros x k Hk. destruct (pix_bound _ _ _ Hk) as (i & j & Hi & Hj & ->). unfold s_M.
  rewrite Hf, EA1, EA2, HN0 by assumption.
  rewrite !A_grid by (try apply mir_lt; assumption).
  cbn [fst snd]. rewrite !pax_no_pml.
  f_equal; [f_equal|].
  - etransitivity; [apply ax_ext; [apply mir_lt; assumption|]; intros c Hc; rewrite pax_no_pml; reflexivity|].
    etransitivity; [|symmetry; apply ax_ext; [assumption|]; intros c Hc; rewrite pax_no_pml; reflexivity].
    apply (ax_mir2 _ Nx (fun c => Ax_g (s_L0 s1) Nx Ny (s_pol s1) true (s_epsC s1) (pix Ny c j))); [assumption| |].
    + intros c Hc. unfold Ax_g. destruct (s_pol s1); [reflexivity|]. rewrite (eps_dir_mx_x _ Nx Ny (s_epsC s1)) by assumption. reflexivity.
    + intros c Hc. rewrite Hg by assumption. reflexivity.
  - apply ax_rel; [assumption|]. intros c Hc. f_equal.
    + unfold Ay_g. destruct (s_pol s1); [reflexivity|]. rewrite (eps_dir_mx_y true _ Nx Ny (s_epsC s1)) by assumption. reflexivity.
    + rewrite !pax_no_pml. apply ax_rel; [assumption|]. intros c' Hc'. rewrite Hg by assumption. reflexivity.
  - rewrite Hg by assumption. f_equal. unfold Ad_g. destruct (s_pol s1); [|reflexivity]. do 2 f_equal. apply HepsC; assumption.
Qed.
Lemma mirror_x_derived eps1 eps2 X1 X2 : s_NPML s1 = (0, 0) -> same_grid s1 s2 -> mirrored_x Nx Ny eps1 eps2 -> mirrored_x Nx Ny X1 X2 ->
  mirrored_x Nx Ny (fst (derived_fields s1 eps1 false X1)) (fst (derived_fields s2 eps2 false X2)) /\
  (s_pol s1 = PolEz -> 2 <= Nx -> forall i j, i < Nx -> j < Ny ->
    snd (derived_fields s2 eps2 false X2) (pix Ny (Nx - 1 - i) j) = (- snd (derived_fields s1 eps1 false X1) (pix Ny (next Nx i) j))%C).
Proof.
  intros HN0 (G1 & G2 & G3 & G4 & G5 & G6 & G7 & G8) HE HX.
  assert (HNx2: (0 < s_Nx s2)%nat) by (rewrite G5; exact HNx). assert (HNy2: (0 < s_Ny s2)%nat) by (rewrite G6; exact HNy).
  split.
  - intros i j Hi Hj. change (Nx - 1 - i)%nat with (mir Nx i). destruct (derived_grid e s1 eps1 X1 HR1 HNx HNy i j Hi Hj) as [Da1 _].
    destruct (derived_grid e s2 eps2 X2 HR2 HNx2 HNy2 (mir Nx i) j) as [Da2 _]; [rewrite G5; apply mir_lt; exact HNx|rewrite G6; exact Hj|].
    rewrite G6 in Da2. rewrite Da1, Da2. unfold facE, spy, sdy. rewrite G1, G2, G3, G4, G5, G6, G7, G8, HN0. f_equal; [f_equal|].
    + destruct (s_pol s1); [reflexivity|]. rewrite (eps_dir_mx_y false _ Nx Ny eps1) by assumption. reflexivity.
    + cbn [snd]. rewrite !pax_no_pml. apply ax_rel; [assumption|]. intros c Hc. apply HX; assumption.
  - intros Hp HN i j Hi Hj. change (Nx - 1 - i)%nat with (mir Nx i). destruct (derived_grid e s1 eps1 X1 HR1 HNx HNy (next Nx i) j (next_lt _ _ Hi) Hj) as [_ Db1].
    destruct (derived_grid e s2 eps2 X2 HR2 HNx2 HNy2 (mir Nx i) j) as [_ Db2]; [rewrite G5; apply mir_lt; exact HNx|rewrite G6; exact Hj|].
    rewrite G6 in Db2. rewrite Db1, Db2. unfold facE, spx, sdx. rewrite G1, G2, G3, G4, G5, G6, G7, G8, HN0, Hp.
    cbn [fst]. rewrite !pax_no_pml. rewrite (ax_mir_b _ Nx (fun c => X1 (pix Ny c j))); try assumption; [ring|]. intros c Hc. apply HX; assumption.
Qed.
Lemma mirror_y_moved : s_NPML s1 = (0, 0) -> same_grid s1 s2 -> mirrored_y Nx Ny (nd_buf (s_eps s1)) (nd_buf (s_eps s2)) ->
  let f := fun k => pix Ny (k / Ny) (mir Ny (k mod Ny)) in moved (s_M s1) (s_M s1) f f (s_A s1) (s_A s2).
Proof.
  intros HN0 (G1 & G2 & G3 & G4 & G5 & G6 & G7 & G8) Heps f.
  destruct (consistent_A s1 (reachable_consistent e s1 HR1)) as [EA1 _].
  destruct (consistent_A s2 (reachable_consistent e s2 HR2)) as [EA2 _].
  assert (HP1 := reachable_physical e s1 HR1 HNx HNy). destruct (sd_neq0 s1 HP1) as [Hdx Hdy].
  rewrite G1, G2, G3, G4, G5, G6, G7, G8 in EA2.
  assert (HepsC: mirrored_y Nx Ny (s_epsC s1) (s_epsC s2)).
  { intros i j Hi Hj. unfold s_epsC, cvec. rewrite (Heps i j Hi Hj). reflexivity. }
  assert (Hf: forall i j, (j < Ny)%nat -> f (pix Ny i j) = pix Ny i (mir Ny j)).
  { intros i j Hj. unfold f, pix. rewrite flat_div, flat_mod by assumption. reflexivity. }
  assert (Hg: forall i j, (i < Nx)%nat -> (j < Ny)%nat -> f (pix Ny i (mir Ny j)) = pix Ny i j).
  { intros i j Hi Hj. rewrite Hf by (apply mir_lt; assumption). rewrite mir_mir by assumption. reflexivity. }
  intros x k Hk. destruct (pix_bound _ _ _ Hk) as (i & j & Hi & Hj & ->). unfold s_M.
  rewrite Hf, EA1, EA2, HN0 by assumption.
  rewrite !A_grid by (try apply mir_lt; assumption).
  cbn [fst snd]. rewrite !pax_no_pml.
  f_equal; [f_equal|].
  - apply ax_rel; [assumption|]. intros c Hc. f_equal.
    + unfold Ax_g. destruct (s_pol s1); [reflexivity|]. rewrite (eps_dir_my_x true _ Nx Ny (s_epsC s1)) by assumption. reflexivity.
    + rewrite !pax_no_pml. apply ax_rel; [assumption|]. intros c' Hc'. rewrite Hg by assumption. reflexivity.
  - etransitivity; [apply ax_ext; [apply mir_lt; assumption|]; intros c Hc; rewrite pax_no_pml; reflexivity|].
    etransitivity; [|symmetry; apply ax_ext; [assumption|]; intros c Hc; rewrite pax_no_pml; reflexivity].
    apply (ax_mir2 _ Ny (fun c => Ay_g (s_L0 s1) Nx Ny (s_pol s1) true (s_epsC s1) (pix Ny i c))); [assumption| |].
    + intros c Hc. unfold Ay_g. destruct (s_pol s1); [reflexivity|]. rewrite (eps_dir_my_y _ Nx Ny (s_epsC s1)) by assumption. reflexivity.
    + intros c Hc. rewrite Hg by assumption. reflexivity.
  - rewrite Hg by assumption. f_equal. unfold Ad_g. destruct (s_pol s1); [|reflexivity]. do 2 f_equal. apply HepsC; assumption.
Qed.
Lemma mirror_y_derived eps1 eps2 X1 X2 : s_NPML s1 = (0, 0) -> same_grid s1 s2 -> mirrored_y Nx Ny eps1 eps2 -> mirrored_y Nx Ny X1 X2 ->
  mirrored_y Nx Ny (snd (derived_fields s1 eps1 false X1)) (snd (derived_fields s2 eps2 false X2)) /\
  (s_pol s1 = PolEz -> 2 <= Ny -> forall i j, i < Nx -> j < Ny ->
    fst (derived_fields s2 eps2 false X2) (pix Ny i (Ny - 1 - j)) = (- fst (derived_fields s1 eps1 false X1) (pix Ny i (next Ny j)))%C).
Proof.
  intros HN0 (G1 & G2 & G3 & G4 & G5 & G6 & G7 & G8) HE HX.
  assert (HNx2: (0 < s_Nx s2)%nat) by (rewrite G5; exact HNx). assert (HNy2: (0 < s_Ny s2)%nat) by (rewrite G6; exact HNy).
  split.
  - intros i j Hi Hj. change (Ny - 1 - j)%nat with (mir Ny j). destruct (derived_grid e s1 eps1 X1 HR1 HNx HNy i j Hi Hj) as [_ Db1].
    destruct (derived_grid e s2 eps2 X2 HR2 HNx2 HNy2 i (mir Ny j)) as [_ Db2]; [rewrite G5; exact Hi|rewrite G6; apply mir_lt; exact HNy|].
    rewrite G6 in Db2. rewrite Db1, Db2. unfold facE, spx, sdx. rewrite G1, G2, G3, G4, G5, G6, G7, G8, HN0. f_equal; [f_equal|].
    + destruct (s_pol s1); [reflexivity|]. rewrite (eps_dir_my_x false _ Nx Ny eps1) by assumption. reflexivity.
    + cbn [fst]. rewrite !pax_no_pml. apply ax_rel; [assumption|]. intros c Hc. apply HX; assumption.
  - intros Hp HN i j Hi Hj. change (Ny - 1 - j)%nat with (mir Ny j). destruct (derived_grid e s1 eps1 X1 HR1 HNx HNy i (next Ny j) Hi (next_lt _ _ Hj)) as [Da1 _].
    destruct (derived_grid e s2 eps2 X2 HR2 HNx2 HNy2 i (mir Ny j)) as [Da2 _]; [rewrite G5; exact Hi|rewrite G6; apply mir_lt; exact HNy|].
    rewrite G6 in Da2. rewrite Da1, Da2. unfold facE, spy, sdy. rewrite G1, G2, G3, G4, G5, G6, G7, G8, HN0, Hp.
    cbn [snd]. rewrite !pax_no_pml. rewrite (ax_mir_b _ Ny (fun c => X1 (pix Ny i c))); try assumption; [ring|]. intros c Hc. apply HX; assumption.
Qed.
End Grid.

(** ** The theorems *)

(** translation around the periodic domain (no PML) *)
Theorem C107_translation :
  forall e s1 s2 da db, reachable e s1 -> reachable e s2 -> solver_exact e -> real_solver_exact e ->
  0 < s_Nx s1 -> 0 < s_Ny s1 -> s_NPML s1 = (0, 0) -> same_grid s1 s2 ->
  nd_size (s_src s1) = s_M s1 -> nd_size (s_src s2) = s_M s2 -> fresh s1 -> fresh s2 -> regular s1 ->
  let shifted : array_relation := fun T => moved_by (s_Nx s1) (s_Ny s1) da db in
  same_device_up_to shifted s1 s2 ->
  same_nonlinear_behaviour e shifted (fun F1 F2 => shifted C (fst F1) (fst F2) /\ shifted C (snd F1) (snd F2)) s1 s2.
Proof.
  intros e s1 s2 da db HR1 HR2 He Hre HNx HNy HN0 HG S1 S2 F1 F2 HN shifted HD.
  assert (EM : s_M s2 = s_M s1) by (destruct HG as (_ & _ & _ & _ & G5 & G6 & _); unfold s_M; rewrite G5, G6; reflexivity).
  apply (behaviour_of e shifted _ (fun k => pix (s_Ny s1) (sh (s_Nx s1) da (k / s_Ny s1)) (sh (s_Ny s1) db (k mod s_Ny s1)))
    (fun k => pix (s_Ny s1) (sh (s_Nx s1) (s_Nx s1 - da mod s_Nx s1) (k / s_Ny s1)) (sh (s_Ny s1) (s_Ny s1 - db mod s_Ny s1) (k mod s_Ny s1)))); try assumption; try apply HG.
  - rewrite EM. apply renumber_sh; assumption.
  - intros T v1 v2. apply (rel_of s1 (fun i j => pix (s_Ny s1) (sh (s_Nx s1) da i) (sh (s_Ny s1) db j))).
    intros i j Hj. unfold pix. rewrite flat_div, flat_mod by assumption. reflexivity.
  - rewrite EM. apply (translation_moved e); try assumption. apply HD.
  - intros. apply (translation_derived e); assumption.
Qed.

(** exchange of the two axes, PML layers included *)
Theorem C107_axes_exchanged :
  forall e s1 s2, reachable e s1 -> reachable e s2 -> solver_exact e -> real_solver_exact e ->
  0 < s_Nx s1 -> 0 < s_Ny s1 -> axes_exchanged s1 s2 ->
  nd_size (s_src s1) = s_M s1 -> nd_size (s_src s2) = s_M s2 -> fresh s1 -> fresh s2 -> regular s1 ->
  let transposed : array_relation := fun T => transpose_of (s_Nx s1) (s_Ny s1) in
  same_device_up_to transposed s1 s2 ->
  same_nonlinear_behaviour e transposed
    (fun F1 F2 => transposed C (fun k => - snd F1 k)%C (fst F2) /\ transposed C (fun k => - fst F1 k)%C (snd F2)) s1 s2.
Proof.
  intros e s1 s2 HR1 HR2 He Hre HNx HNy HG S1 S2 F1 F2 HN transposed HD.
  assert (EM : s_M s2 = s_Ny s1 * s_Nx s1) by (destruct HG as (_ & _ & _ & _ & G5 & G6 & _); unfold s_M; rewrite G5, G6; reflexivity).
  apply (behaviour_of e transposed _ (fun k => pix (s_Nx s1) (k mod s_Ny s1) (k / s_Ny s1)) (fun q => pix (s_Ny s1) (q mod s_Nx s1) (q / s_Nx s1))); try assumption; try apply HG.
  - rewrite EM. apply renumber_swap.
  - intros T v1 v2. apply (rel_of s1 (fun i j => pix (s_Nx s1) j i)).
    intros i j Hj. unfold pix. rewrite flat_div, flat_mod by assumption. reflexivity.
  - rewrite EM. apply (exchange_moved e); try assumption. apply HD.
  - intros. apply (exchange_derived e); assumption.
Qed.

(** reflection (no PML).  The component of the other field that lives between two pixels of the axis changes
    sign and goes to the reflected edge; for Hz it is not claimed (see C81: false of the code). *)
Theorem C107_reflection_x :
  forall e s1 s2, reachable e s1 -> reachable e s2 -> solver_exact e -> real_solver_exact e ->
  0 < s_Nx s1 -> 0 < s_Ny s1 -> s_NPML s1 = (0, 0) -> same_grid s1 s2 ->
  nd_size (s_src s1) = s_M s1 -> nd_size (s_src s2) = s_M s2 -> fresh s1 -> fresh s2 -> regular s1 ->
  let mirrored : array_relation := fun T => mirrored_x (s_Nx s1) (s_Ny s1) in
  same_device_up_to mirrored s1 s2 ->
  same_nonlinear_behaviour e mirrored (fun F1 F2 => mirrored C (fst F1) (fst F2) /\
    (s_pol s1 = PolEz -> 2 <= s_Nx s1 -> forall i j, i < s_Nx s1 -> j < s_Ny s1 ->
       snd F2 (pix (s_Ny s1) (s_Nx s1 - 1 - i) j) = (- snd F1 (pix (s_Ny s1) (next (s_Nx s1) i) j))%C)) s1 s2.
Proof.
  intros e s1 s2 HR1 HR2 He Hre HNx HNy HN0 HG S1 S2 F1 F2 HN mirrored HD.
  assert (EM : s_M s2 = s_M s1) by (destruct HG as (_ & _ & _ & _ & G5 & G6 & _); unfold s_M; rewrite G5, G6; reflexivity).
  apply (behaviour_of e mirrored _ (fun k => pix (s_Ny s1) (mir (s_Nx s1) (k / s_Ny s1)) (k mod s_Ny s1)) (fun k => pix (s_Ny s1) (mir (s_Nx s1) (k / s_Ny s1)) (k mod s_Ny s1))); try assumption; try apply HG.
  - rewrite EM. apply renumber_mx; assumption.
  - intros T v1 v2. apply (rel_of s1 (fun i j => pix (s_Ny s1) (mir (s_Nx s1) i) j)).
    intros i j Hj. unfold pix. rewrite flat_div, flat_mod by assumption. reflexivity.
  - rewrite EM. apply (mirror_x_moved e); try assumption. apply HD.
  - intros. apply (mirror_x_derived e); assumption.
Qed.
Theorem C107_reflection_y :
  forall e s1 s2, reachable e s1 -> reachable e s2 -> solver_exact e -> real_solver_exact e ->
  0 < s_Nx s1 -> 0 < s_Ny s1 -> s_NPML s1 = (0, 0) -> same_grid s1 s2 ->
  nd_size (s_src s1) = s_M s1 -> nd_size (s_src s2) = s_M s2 -> fresh s1 -> fresh s2 -> regular s1 ->
  let mirrored : array_relation := fun T => mirrored_y (s_Nx s1) (s_Ny s1) in
  same_device_up_to mirrored s1 s2 ->
  same_nonlinear_behaviour e mirrored (fun F1 F2 => mirrored C (snd F1) (snd F2) /\
    (s_pol s1 = PolEz -> 2 <= s_Ny s1 -> forall i j, i < s_Nx s1 -> j < s_Ny s1 ->
       fst F2 (pix (s_Ny s1) i (s_Ny s1 - 1 - j)) = (- fst F1 (pix (s_Ny s1) i (next (s_Ny s1) j)))%C)) s1 s2.
Proof.
  intros e s1 s2 HR1 HR2 He Hre HNx HNy HN0 HG S1 S2 F1 F2 HN mirrored HD.
  assert (EM : s_M s2 = s_M s1) by (destruct HG as (_ & _ & _ & _ & G5 & G6 & _); unfold s_M; rewrite G5, G6; reflexivity).
  apply (behaviour_of e mirrored _ (fun k => pix (s_Ny s1) (k / s_Ny s1) (mir (s_Ny s1) (k mod s_Ny s1))) (fun k => pix (s_Ny s1) (k / s_Ny s1) (mir (s_Ny s1) (k mod s_Ny s1)))); try assumption; try apply HG.
  - rewrite EM. apply renumber_my; assumption.
  - intros T v1 v2. apply (rel_of s1 (fun i j => pix (s_Ny s1) i (mir (s_Ny s1) j))).
    intros i j Hj. unfold pix. rewrite flat_div, flat_mod by assumption. reflexivity.
  - rewrite EM. apply (mirror_y_moved e); try assumption. apply HD.
  - intros. apply (mirror_y_derived e); assumption.
Qed.

(** ** a Kerr device of 3 x 2 pixels and its images *)
Lemma ex_image nx ny (g : nat -> nat) : 0 < nx -> 0 < ny ->
  exists s, reachable ex_env_mkl s /\ s_omega s = ex_omega /\ s_L0 s = 1%R /\ s_Nx s = nx /\ s_Ny s = ny /\
    nd_buf (s_eps s) = (fun k => nd_buf ex_eps (g k)) /\ s_xrange s = (0, INR nx * 1)%R /\ s_yrange s = (0, INR ny * 1)%R /\
    s_NPML s = (0, 0) /\ s_pol s = PolEz /\ s_nl s = [mkNonlin (1/10) (fun _ => 1%R) false 0] /\ fresh s /\
    s_src s = mkNd nx ny (fun k => nd_buf ex_nl_src (g k)).
Proof.
  intros Hx Hy. assert (HS : exists s, Simulation ex_omega (mkNd nx ny (fun k => nd_buf ex_eps (g k))) 1 (Some [0; 0]%Z) "Ez" 1 = Ok s /\ s_nl s = []).
  { unfold Simulation. rewrite ex_check by auto. eexists. split; reflexivity. }
  destruct HS as (s0 & HS & HN). assert (HF := Simulation_fields _ _ _ _ _ _ _ HS).
  destruct HF as (E1 & E2 & E3 & E4 & E5 & E6 & E7 & E8 & _ & _ & E9 & EPz & EPh & EF). cbn [nd_nx nd_ny] in *.
  exists (run_ops ex_env_mkl [AddNl (1/10) (fun _ => 1%R) "kerr" false None; SetSrc (mkNd nx ny (fun k => nd_buf ex_nl_src (g k)))] s0).
  specialize (E9 0%Z 0%Z eq_refl). change (Z.to_nat 0, Z.to_nat 0) with (0,0) in E9. specialize (EPz eq_refl).
  split; [do 6 eexists; exists s0; eexists; split; [|split; [|split; [|split; [exact HS|reflexivity]]]]; cbn [nd_nx nd_ny]; [lra|exact Hx|exact Hy]|].
  unfold run_ops. cbn [fold_left run_op]. unfold add_nl. cbn [Nonlinearity String.eqb Ascii.eqb eqb fst].
  cbn. rewrite E1, E2, E3, E4, E5, E6, E7, E9, EPz, HN. unfold fresh. cbn. rewrite EF. repeat split. do 2 f_equal. field.
Qed.
Lemma ex_nl_image : s_Nx ex_nl = 3 /\ s_Ny ex_nl = 2 /\ nd_buf (s_eps ex_nl) = nd_buf ex_eps /\ s_xrange ex_nl = (0, INR 3 * 1)%R /\ s_yrange ex_nl = (0, INR 2 * 1)%R /\
  s_NPML ex_nl = (0, 0) /\ s_nl ex_nl = [mkNonlin (1/10) (fun _ => 1%R) false 0] /\ fresh ex_nl /\ s_src ex_nl = ex_nl_src.
Proof.
  assert (HS := ex_s_eq "Ez" (or_introl eq_refl)). unfold ex_sim_res, Simulation in HS. rewrite ex_check in HS by auto.
  injection HS as HS. unfold ex_nl, run_ops. cbn [fold_left run_op]. rewrite <- HS. repeat split. cbn. do 2 f_equal. field.
Qed.
(** the hypotheses of the four theorems hold of the Kerr device [ex_nl] (3 x 2 pixels, three different
    permittivities) and its image, and the Newton solver succeeds on it *)
Example C107_met :
  reachable ex_env_mkl ex_nl /\ solver_exact ex_env_mkl /\ real_solver_exact ex_env_mkl /\ 0 < s_Nx ex_nl /\ 0 < s_Ny ex_nl /\ s_NPML ex_nl = (0, 0) /\
  nd_size (s_src ex_nl) = s_M ex_nl /\ fresh ex_nl /\ regular ex_nl /\
  (exists s' F conv, solve_fields_nl ex_env_mkl false None "newton" (1 / 10 ^ 10) 50 ex_nl = (s', Ok (F, conv))) /\
  let image := fun (Rel : array_relation) (P : sim -> sim -> Prop) =>
    exists s2, reachable ex_env_mkl s2 /\ P ex_nl s2 /\ nd_size (s_src s2) = s_M s2 /\ fresh s2 /\ same_device_up_to Rel ex_nl s2 in
  image (fun T => moved_by 3 2 1 1) same_grid /\ image (fun T => transpose_of 3 2) axes_exchanged /\
  image (fun T => mirrored_x 3 2) same_grid /\ image (fun T => mirrored_y 3 2) same_grid.
Proof.
  destruct ex_nl_facts as (EM & EP & ES & EL & EO & _). destruct ex_nl_image as (I1 & I2 & I3 & I4 & I5 & I6 & I7 & I8 & I9).
  split; [apply ex_nl_reachable|]. split; [apply ex_mkl_exact|]. split; [apply ex_mkl_real_exact|]. split; [lia|]. split; [lia|]. split; [exact I6|].
  split; [congruence|]. split; [exact I8|]. split.
  { split; [destruct C82_met as (s0 & _ & _ & _ & HA & _); exact HA|]. split; [apply ex_nl_nonsingular|]. intros _. apply ex_nl_widely. }
  split; [apply C30_met|]. intro image.
  assert (SD : forall (Rel : array_relation) s2 g, nd_buf (s_eps s2) = (fun k => nd_buf ex_eps (g k)) -> nd_buf (s_src s2) = (fun k => nd_buf ex_nl_src (g k)) ->
    s_nl s2 = [mkNonlin (1/10) (fun _ => 1%R) false 0] -> (forall T v, Rel T v (fun k => v (g k))) -> same_device_up_to Rel ex_nl s2).
  { intros Rel s2 g H1 H2 H3 H4. split; [rewrite H1, I3; apply H4|]. split; [rewrite H2, I9; apply H4|]. rewrite H3, I7. constructor; [|constructor].
    cbn. repeat split. apply (H4 R (fun _ => 1%R)). }
  split; [|split; [|split]]; unfold image; clear image.
  - destruct (ex_image 3 2 (fun k => match k with 3 => 0 | 2 => 1 | 5 => 2 | 4 => 3 | 1 => 4 | _ => 5 end)) as (s2 & J0 & J1 & J2 & J3 & J4 & J5 & J6 & J7 & J8 & J9 & J10 & J11 & J12); [lia|lia|].
    exists s2. split; [exact J0|]. split; [unfold same_grid; rewrite J1, J2, J3, J4, J6, J7, J8, J9, EL, EO, I1, I2, I4, I5, I6, EP; repeat split|].
    split; [unfold s_M; rewrite J12, J3, J4; reflexivity|]. split; [exact J11|]. eapply SD; [exact J5|rewrite J12; reflexivity|exact J10|].
    intros T v i j Hi Hj. destruct i as [|[|[|i]]]; [| | |lia]; (destruct j as [|[|j]]; [| |lia]); reflexivity.
  - destruct (ex_image 2 3 (fun k => match k with 0 => 0 | 1 => 2 | 2 => 4 | 3 => 1 | 4 => 3 | _ => 5 end)) as (s2 & J0 & J1 & J2 & J3 & J4 & J5 & J6 & J7 & J8 & J9 & J10 & J11 & J12); [lia|lia|].
    exists s2. split; [exact J0|]. split; [unfold axes_exchanged; rewrite J1, J2, J3, J4, J6, J7, J8, J9, EL, EO, I1, I2, I4, I5, I6, EP; repeat split|].
    split; [unfold s_M; rewrite J12, J3, J4; reflexivity|]. split; [exact J11|]. eapply SD; [exact J5|rewrite J12; reflexivity|exact J10|].
    intros T v i j Hi Hj. destruct i as [|[|[|i]]]; [| | |lia]; (destruct j as [|[|j]]; [| |lia]); reflexivity.
  - destruct (ex_image 3 2 (fun k => match k with 4 => 0 | 5 => 1 | 2 => 2 | 3 => 3 | 0 => 4 | _ => 5 end)) as (s2 & J0 & J1 & J2 & J3 & J4 & J5 & J6 & J7 & J8 & J9 & J10 & J11 & J12); [lia|lia|].
    exists s2. split; [exact J0|]. split; [unfold same_grid; rewrite J1, J2, J3, J4, J6, J7, J8, J9, EL, EO, I1, I2, I4, I5, I6, EP; repeat split|].
    split; [unfold s_M; rewrite J12, J3, J4; reflexivity|]. split; [exact J11|]. eapply SD; [exact J5|rewrite J12; reflexivity|exact J10|].
    intros T v i j Hi Hj. destruct i as [|[|[|i]]]; [| | |lia]; (destruct j as [|[|j]]; [| |lia]); reflexivity.
  - destruct (ex_image 3 2 (fun k => match k with 1 => 0 | 0 => 1 | 3 => 2 | 2 => 3 | 5 => 4 | _ => 5 end)) as (s2 & J0 & J1 & J2 & J3 & J4 & J5 & J6 & J7 & J8 & J9 & J10 & J11 & J12); [lia|lia|].
    exists s2. split; [exact J0|]. split; [unfold same_grid; rewrite J1, J2, J3, J4, J6, J7, J8, J9, EL, EO, I1, I2, I4, I5, I6, EP; repeat split|].
    split; [unfold s_M; rewrite J12, J3, J4; reflexivity|]. split; [exact J11|]. eapply SD; [exact J5|rewrite J12; reflexivity|exact J10|].
    intros T v i j Hi Hj. destruct i as [|[|[|i]]]; [| | |lia]; (destruct j as [|[|j]]; [| |lia]); reflexivity.
Qed.
