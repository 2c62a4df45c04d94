(** C90: Optimization.run with temp_plt, the pictures written during a run. *)
From Coq Require Import Reals Lra Lia List ZArith Arith Bool String DecimalString DecimalNat Decimal DecimalFacts NArith.
From Coquelicot Require Import Coquelicot.
From Verif Require Import Base Linear Spec MCore MSim PCore PSim PEx PropsCore PropsSolve PropsLin PropsNl PropsIter MFilter PFilter PTanh PropsFilter MOpt MPlot PDiff PGrad PExOpt PropsGrad POpt PropsOpt PropsOpt2 PropsOpt3 PropsPlot.
Import ListNotations.

(* ------------------------------------------------------------------ *)
(** ** File names *)

Lemma string_app_length (a b : string) : String.length (a ++ b) = (String.length a + String.length b)%nat.
Proof. induction a as [|x a IH]; cbn; [reflexivity|]. rewrite IH. reflexivity. Qed.
Lemma append_inj_r (a b t : string) : (a ++ t = b ++ t)%string -> a = b.
Proof.
  revert b. induction a as [|x a IH]; intros [|y b] H; cbn in H.
  - reflexivity.
  - exfalso. apply (f_equal String.length) in H. cbn in H. rewrite string_app_length in H. lia.
  - exfalso. apply (f_equal String.length) in H. cbn in H. rewrite string_app_length in H. lia.
  - injection H as -> H. f_equal. apply IH, H.
Qed.
Lemma zeros_parse m s d : NilEmpty.uint_of_string s = Some d ->
  exists d', NilEmpty.uint_of_string (zeros m ++ s)%string = Some d' /\ Nat.of_uint d' = Nat.of_uint d.
Proof.
  intro H. induction m as [|m (d' & E1 & E2)]; [exists d; split; [exact H|reflexivity]|]. exists (D0 d'). split; [|exact E2].
  change (uint_of_char (Ascii.Ascii false false false false true true false false) (NilEmpty.uint_of_string (zeros m ++ s)) = Some (D0 d')). rewrite E1. reflexivity.
Qed.
(** the number can be read off the name *)
Definition pic_number (s : string) : option nat :=
  match NilEmpty.uint_of_string s with Some d => Some (Nat.of_uint d) | None => None end.
Lemma pic_number_dec m k : pic_number (zeros m ++ dec k)%string = Some k.
Proof.
  unfold pic_number. destruct (zeros_parse m (dec k) (Nat.to_uint k) (NilEmpty.usu _)) as (d & -> & ->). rewrite Unsigned.of_to. reflexivity.
Qed.
Lemma string_app_assoc (a b c : string) : ((a ++ b) ++ c = a ++ (b ++ c))%string.
Proof. induction a; cbn; [reflexivity|]. f_equal. assumption. Qed.
(** different iterations have different file names *)
Theorem C90_names_distinct : forall j k, pic_name j = pic_name k -> j = k.
Proof.
  intros j k H. unfold pic_name in H. cbn [append] in H. injection H as H. rewrite <- !string_app_assoc in H. apply append_inj_r in H.
  apply (f_equal pic_number) in H. rewrite !pic_number_dec in H. congruence.
Qed.

(** decimal numerals of the same length are ordered as strings the way their values are *)
Lemma acc_value d : forall acc, Nat.of_uint_acc d acc = (acc * 10 ^ nb_digits d + Nat.of_uint_acc d 0)%nat /\ (Nat.of_uint_acc d 0 < 10 ^ nb_digits d)%nat.
Proof.
  induction d as [|d IH|d IH|d IH|d IH|d IH|d IH|d IH|d IH|d IH|d IH]; intro acc; [cbn; lia|..];
  cbn [Nat.of_uint_acc nb_digits]; rewrite !Nat.tail_mul_spec, ?Nat.mul_0_r;
  match goal with |- context [Nat.of_uint_acc d ?a = _] => destruct (IH a) as [E1 B] end;
  match goal with |- _ /\ (Nat.of_uint_acc d ?b < _)%nat => destruct (IH b) as [E2 _] end;
  rewrite E1, E2, Nat.pow_succ_r' in *; nia.
Qed.
Lemma string_len d : String.length (NilEmpty.string_of_uint d) = nb_digits d.
Proof. induction d; cbn; congruence. Qed.
Lemma compare_acc a : forall b x, nb_digits a = nb_digits b -> (Nat.of_uint_acc a x < Nat.of_uint_acc b x)%nat ->
  String.compare (NilEmpty.string_of_uint a) (NilEmpty.string_of_uint b) = Lt.
Proof.
  assert (L : forall u v x y, nb_digits u = nb_digits v -> (x < y)%nat -> (Nat.of_uint_acc u x < Nat.of_uint_acc v y)%nat).
  { intros u v x y E H. destruct (acc_value u x) as [-> B]. destruct (acc_value v y) as [-> _]. rewrite E in *. nia. }
  induction a as [|a IH|a IH|a IH|a IH|a IH|a IH|a IH|a IH|a IH|a IH]; intros b x E H; destruct b as [|b|b|b|b|b|b|b|b|b|b]; cbn [nb_digits] in E; try discriminate;
  [cbn in H; lia|..]; injection E as E; cbn [NilEmpty.string_of_uint String.compare];
  match goal with |- context [Ascii.compare ?p ?q] => let c := eval compute in (Ascii.compare p q) in change (Ascii.compare p q) with c end; cbv iota;
  try reflexivity; cbn [Nat.of_uint_acc] in H; [eapply IH; eassumption|..];
  try (eapply IH; eassumption); exfalso; rewrite !Nat.tail_mul_spec in H;
  match type of H with (Nat.of_uint_acc ?u ?p < Nat.of_uint_acc ?v ?q)%nat => specialize (L v u q p (eq_sym E)) end; lia.
Qed.
Lemma compare_app a : forall b t, String.length a = String.length b -> String.compare a b = Lt -> String.compare (a ++ t) (b ++ t) = Lt.
Proof.
  induction a as [|x a IH]; intros [|y b] t E H; try discriminate. cbn in E, H |- *. injection E as E.
  destruct (Ascii.compare x y); [|reflexivity|discriminate]. apply IH; assumption.
Qed.
Lemma compare_prefix p a b : String.compare (p ++ a) (p ++ b) = String.compare a b.
Proof. induction p as [|x p IH]; [reflexivity|]. cbn. unfold Ascii.compare. rewrite N.compare_refl. exact IH. Qed.
Lemma zeros_uint m d : (zeros m ++ NilEmpty.string_of_uint d)%string = NilEmpty.string_of_uint (Nat.iter m D0 d).
Proof. induction m as [|m IH]; [reflexivity|]. change (String (Ascii.Ascii false false false false true true false false) (zeros m ++ NilEmpty.string_of_uint d) = String (Ascii.Ascii false false false false true true false false) (NilEmpty.string_of_uint (Nat.iter m D0 d)))%string. rewrite IH. reflexivity. Qed.
Lemma zeros_value m d : Nat.of_uint (Nat.iter m D0 d) = Nat.of_uint d.
Proof. induction m as [|m IH]; [reflexivity|]. exact IH. Qed.
Lemma zeros_length m : String.length (zeros m) = m.
Proof. induction m as [|m IH]; [reflexivity|]. cbn. rewrite IH. reflexivity. Qed.
Lemma dec_short k : (k < 10 ^ 6)%nat -> (String.length (dec k) <= 6)%nat.
Proof.
  intro H. unfold dec. rewrite string_len.
  assert (E : unorm (Nat.to_uint k) = Nat.to_uint k) by (rewrite <- Unsigned.to_of, Unsigned.of_to; reflexivity).
  assert (V : Nat.of_uint (Nat.to_uint k) = k) by apply Unsigned.of_to. revert E V. generalize (Nat.to_uint k) as d. intros d E V.
  assert (P : forall d', (10 ^ nb_digits d' <= k)%nat -> (S (nb_digits d') <= 6)%nat).
  { intros d' Hd. assert (A : (10 ^ nb_digits d' < 10 ^ 6)%nat) by lia. apply Nat.pow_lt_mono_r_iff in A; lia. }
  destruct d as [|d|d|d|d|d|d|d|d|d|d]; cbn [nb_digits]; [lia|..].
  { assert (d = Nil) as ->; [|cbn; lia]. change (match nzhead d with Nil => D0 Nil | x => x end = D0 d) in E. destruct (nzhead d) eqn:Ez; try discriminate; [congruence|].
    exfalso. exact (nzhead_nonzero d _ Ez). }
  all: apply P; rewrite <- V; unfold Nat.of_uint; cbn [Nat.of_uint_acc]; rewrite Nat.tail_mul_spec;
  match goal with |- (_ <= Nat.of_uint_acc ?d ?a)%nat => destruct (acc_value d a) as [-> _] end; nia.
Qed.
(** Up to iteration 999999 the name has six digits, whose value is the number of the iteration;
    sorting the names of the files sorts the pictures by iteration. *)
Theorem C90_names_sorted : forall j k, (j < k)%nat -> (k < 10 ^ 6)%nat -> String.compare (pic_name j) (pic_name k) = Lt.
Proof.
  intros j k H Hk. unfold pic_name. rewrite !compare_prefix, <- !string_app_assoc.
  assert (Hj : (j < 10 ^ 6)%nat) by lia. apply dec_short in Hj, Hk.
  assert (LL : String.length (zeros (6 - String.length (dec j)) ++ dec j) = String.length (zeros (6 - String.length (dec k)) ++ dec k)) by (rewrite !string_app_length, !zeros_length; lia).
  apply compare_app; [exact LL|]. unfold dec in *. rewrite !zeros_uint in *. rewrite !string_len in LL. rewrite !string_len. apply (compare_acc _ _ 0); [exact LL|].
  change (Nat.of_uint (Nat.iter (6 - nb_digits (Nat.to_uint j)) D0 (Nat.to_uint j)) < Nat.of_uint (Nat.iter (6 - nb_digits (Nat.to_uint k)) D0 (Nat.to_uint k)))%nat.
  rewrite !zeros_value, !Unsigned.of_to. exact H.
Qed.
Theorem C90_six_digits : forall k, (k < 10 ^ 6)%nat ->
  exists ds, pic_name k = ("it" ++ ds ++ ".png")%string /\ String.length ds = 6%nat /\ pic_number ds = Some k.
Proof.
  intros k H. apply dec_short in H. exists (zeros (6 - String.length (dec k)) ++ dec k)%string.
  split; [unfold pic_name; rewrite string_app_assoc; reflexivity|]. split; [rewrite string_app_length, zeros_length; lia|apply pic_number_dec].
Qed.

(* ------------------------------------------------------------------ *)
(** ** One loop for GD and ADAM *)
Section Loop.
Context {A : Type} (e : env) (dir : A -> nat -> rvec -> rvec) (next : A -> rvec -> A) (step : R).
Fixpoint gen (n i : nat) (a : A) : St (opt * sim) unit :=
  match n with
  | O => ret tt
  | S m => g <- eval_step e ;; update_rho (dir a i g) step ;;; gen m (S i) (next a g)
  end.
Fixpoint gen_plt (tp : option temp_plt) (n i : nat) (a : A) : St ostate unit :=
  match n with
  | O => ret tt
  | S m => g <- off_disk (eval_step e) ;; maybe_plot tp i ;;; off_disk (update_rho (dir a i g) step) ;;; gen_plt tp m (S i) (next a g)
  end.
End Loop.
Definition gd_dir (_ : unit) (_ : nat) (g : rvec) : rvec := g.
Definition gd_next (a : unit) (_ : rvec) : unit := a.
Definition ad_dir (b1 b2 : R) (a : rvec * rvec) (i : nat) (g : rvec) : rvec :=
  fun k => adam_step b1 b2 (adam_m b1 (fst a k) (g k)) (adam_v b2 (snd a k) (g k)) i.
Definition ad_next (b1 b2 : R) (a : rvec * rvec) (g : rvec) : rvec * rvec :=
  (fun k => adam_m b1 (fst a k) (g k), fun k => adam_v b2 (snd a k) (g k)).
Lemma gen_GD e step n : forall i st, run_GD e step n st = gen e gd_dir gd_next step n i tt st.
Proof.
  induction n as [|n IH]; intros i st; [reflexivity|]. rewrite run_GD_step. cbn [gen]. unfold bind, gd_dir.
  destruct (eval_step e st) as [st1 [g|x]]; [|reflexivity]. destruct (update_rho g step st1) as [st2 [[]|x]]; [|reflexivity]. apply IH.
Qed.
Lemma gen_ADAM e step b1 b2 n : forall i m v st, run_ADAM e step b1 b2 n i m v st = gen e (ad_dir b1 b2) (ad_next b1 b2) step n i (m, v) st.
Proof.
  induction n as [|n IH]; intros i m v st; [reflexivity|]. rewrite run_ADAM_step. cbn [gen]. unfold bind.
  destruct (eval_step e st) as [st1 [g|x]]; [|reflexivity]. unfold ad_dir at 1. cbn [fst snd].
  destruct (update_rho _ step st1) as [st2 [[]|x]]; [|reflexivity]. apply IH.
Qed.
Lemma off_eval e st d : (J <- off_disk (compute_J e) ;;
      off_disk (modS (fun st => (push_obj J (fst st), snd st))) ;;;
      off_disk (set_source_amplitude e) ;;;
      off_disk (compute_dJ e)) (st, d) = off_disk (eval_step e) (st, d).
Proof.
  unfold off_disk, eval_step, bind, modS. cbn [fst snd]. destruct (compute_J e st) as [st1 [J|x]]; [|reflexivity]. cbn [fst snd].
  destruct (set_source_amplitude e _) as [st2 [[]|x]]; [|reflexivity]. cbn [fst snd]. destruct (compute_dJ e st2) as [st3 [g|x]]; reflexivity.
Qed.
Lemma gen_GD_plt e tp step n : forall i st, run_GD_plt e tp step n i st = gen_plt e gd_dir gd_next step tp n i tt st.
Proof.
  induction n as [|n IH]; intros i [st d]; [reflexivity|]. cbn [gen_plt]. unfold bind at 1. rewrite <- off_eval. cbn [run_GD_plt]. unfold bind.
  destruct (off_disk (compute_J e) (st, d)) as [st1 [J|x]]; [|reflexivity]. destruct (off_disk (modS _) st1) as [st2 [[]|x]]; [|reflexivity].
  destruct (off_disk (set_source_amplitude e) st2) as [st3 [[]|x]]; [|reflexivity]. destruct (off_disk (compute_dJ e) st3) as [st4 [g|x]]; [|reflexivity].
  destruct (maybe_plot tp i st4) as [st5 [[]|x]]; [|reflexivity]. unfold gd_dir at 1. destruct (off_disk (update_rho g step) st5) as [st6 [[]|x]]; [|reflexivity]. apply IH.
Qed.
Lemma gen_ADAM_plt e tp step b1 b2 n : forall i m v st, run_ADAM_plt e tp step b1 b2 n i m v st = gen_plt e (ad_dir b1 b2) (ad_next b1 b2) step tp n i (m, v) st.
Proof.
  induction n as [|n IH]; intros i m v [st d]; [reflexivity|]. cbn [gen_plt]. unfold bind at 1. rewrite <- off_eval. cbn [run_ADAM_plt]. unfold bind.
  destruct (off_disk (compute_J e) (st, d)) as [st1 [J|x]]; [|reflexivity]. destruct (off_disk (modS _) st1) as [st2 [[]|x]]; [|reflexivity].
  destruct (off_disk (set_source_amplitude e) st2) as [st3 [[]|x]]; [|reflexivity]. destruct (off_disk (compute_dJ e) st3) as [st4 [g|x]]; [|reflexivity].
  cbv zeta. destruct (maybe_plot tp i st4) as [st5 [[]|x]]; [|reflexivity]. unfold ad_dir at 1. cbn [fst snd].
  destruct (off_disk (update_rho _ step) st5) as [st6 [[]|x]]; [|reflexivity]. apply IH.
Qed.

(* ------------------------------------------------------------------ *)
(** ** The folder *)
(** entries are directories or pictures of earlier iterations *)
Definition inv (i : nat) (d : folder) : Prop :=
  forall nm x, In (nm, x) d -> x = EDir \/ exists j, (j < i)%nat /\ nm = pic_name j.
Lemma savefig_spec i p d d' : inv i d -> savefig (pic_name i) p d = Ok d' ->
  ~ In (pic_name i, EDir) d /\ inv (S i) d' /\ forall nm x, In (nm, x) d' <-> In (nm, x) d \/ (nm = pic_name i /\ x = EPage p).
Proof.
  intros HI H. unfold savefig in H.
  assert (HN: List.find (fun x => String.eqb (fst x) (pic_name i)) d = None).
  { destruct (List.find _ d) as [[nm x]|] eqn:E; [|reflexivity]. apply find_some in E as [E1 E2]. cbn [fst] in E2. apply String.eqb_eq in E2. subst nm.
    destruct (HI _ _ E1) as [->|(j & Hj & Ej)]; [discriminate|]. apply C90_names_distinct in Ej. lia. }
  rewrite HN in H. injection H as <-.
  assert (HF: forall nm x, In (nm, x) d -> nm <> pic_name i).
  { intros nm x Hin E. apply (find_none _ _ HN) in Hin. cbn [fst] in Hin. subst nm. rewrite String.eqb_refl in Hin. discriminate. }
  assert (HX: forall nm x, In (nm, x) ((pic_name i, EPage p) :: List.filter (fun x => negb (String.eqb (fst x) (pic_name i))) d) <-> In (nm, x) d \/ (nm = pic_name i /\ x = EPage p)).
  { intros nm x. cbn [In]. rewrite filter_In. cbn [fst]. split.
    - intros [E|[E _]]; [injection E as <- <-; right; auto|left; exact E].
    - intros [E|[-> ->]]; [right|left; reflexivity]. split; [exact E|]. apply HF in E. destruct (String.eqb_spec nm (pic_name i)); [contradiction|reflexivity]. }
  split. { intro Hin. exact (HF _ _ Hin eq_refl). }
  split; [|exact HX].
  intros nm x Hin. apply HX in Hin as [Hin|[-> _]]; [|right; exists i; split; [lia|reflexivity]].
  destruct (HI _ _ Hin) as [E|(j & Hj & E)]; [left; exact E|right; exists j; split; [lia|exact E]].
Qed.
Lemma inv_S i d : inv i d -> inv (S i) d.
Proof. intros H nm x Hin. destruct (H nm x Hin) as [E|(j & Hj & E)]; [left; exact E|right; exists j; split; [lia|exact E]]. Qed.
Lemma inv_clear d : inv 0 (clear_folder d).
Proof. intros nm x Hin. apply filter_In in Hin as [_ E]. unfold is_dir in E. cbn [snd] in E. destruct x; try discriminate. left. reflexivity. Qed.
Lemma maybe_plot_spec tp i st d st' d' r : inv i d -> maybe_plot (Some tp) i (st, d) = ((st', d'), r) ->
  st' = st /\ inv (S i) d' /\
  ((due tp i = false /\ r = Ok tt /\ d' = d) \/
   (due tp i = true /\ ((exists p, r = Ok tt /\ plot_page tp (fst st) (snd st) = Ok p /\ ~ In (pic_name i, EDir) d /\
                         forall nm x, In (nm, x) d' <-> In (nm, x) d \/ (nm = pic_name i /\ x = EPage p)) \/
                      ((exists x, r = Raise x) /\ d' = d)))).
Proof.
  intros HI H. unfold maybe_plot in H. destruct (due tp i) eqn:ED.
  - unfold plot_it in H. cbn [fst snd] in H. destruct (plot_page tp (fst st) (snd st)) as [p|x] eqn:EP.
    + destruct (savefig (pic_name i) p d) as [d1|x] eqn:ES.
      * destruct (savefig_spec i p d d1 HI ES) as (S1 & S2 & S3). injection H as <- <- <-. split; [reflexivity|]. split; [exact S2|]. right. split; [reflexivity|]. left. eauto.
      * injection H as <- <- <-. split; [reflexivity|]. split; [apply inv_S, HI|]. right. split; [reflexivity|]. right. eauto.
    + injection H as <- <- <-. split; [reflexivity|]. split; [apply inv_S, HI|]. right. split; [reflexivity|]. right. eauto.
  - injection H as <- <- <-. split; [reflexivity|]. split; [apply inv_S, HI|]. left. auto.
Qed.

Lemma gen_plt_files {A} e dir next step tp n : forall i (a : A) st d st' d', inv i d ->
  gen_plt e dir next step (Some tp) n i a (st, d) = ((st', d'), Ok tt) ->
  gen e dir next step n i a st = (st', Ok tt) /\
  forall nm x, In (nm, x) d' <-> In (nm, x) d \/
    exists k p, (k < n)%nat /\ due tp (i + k) = true /\ nm = pic_name (i + k) /\ x = EPage p /\
      exists stk stk' g, gen e dir next step k i a st = (stk, Ok tt) /\ eval_step e stk = (stk', Ok g) /\
        plot_page tp (fst stk') (snd stk') = Ok p.
Proof.
  induction n as [|n IH]; intros i a st d st' d' HI H.
  - cbn in H. injection H as <- <-. split; [reflexivity|]. intros nm x. split; [auto|]. intros [E|(k & p & Hk & _)]; [exact E|lia].
  - cbn [gen_plt] in H. unfold bind in H. unfold off_disk at 1 in H. cbn [fst snd] in H.
    destruct (eval_step e st) as [st1 [g|x]] eqn:E1; [|discriminate].
    destruct (maybe_plot (Some tp) i (st1, d)) as [[st2 d2] [[]|x]] eqn:E2; [|discriminate].
    destruct (maybe_plot_spec _ _ _ _ _ _ _ HI E2) as (-> & I2 & HP).
    unfold off_disk in H. cbn [fst snd] in H. destruct (update_rho (dir a i g) step st1) as [st3 [[]|x]] eqn:E3; [|discriminate].
    destruct (IH (S i) (next a g) st3 d2 st' d' I2 H) as [G1 G2].
    split. { cbn [gen]. unfold bind. rewrite E1, E3. exact G1. }
    assert (HS: forall k stk, gen e dir next step k (S i) (next a g) st3 = (stk, Ok tt) <-> gen e dir next step (S k) i a st = (stk, Ok tt)).
    { intros k stk. cbn [gen]. unfold bind. rewrite E1, E3. reflexivity. }
    intros nm x. rewrite G2. split.
    + intros [Hd|(k & p & Hk & Hdue & -> & -> & stk & stk' & g' & K1 & K2 & K3)].
      * destruct HP as [(_ & _ & ->)|(Hdue & [(p & _ & HP & _ & HX)|((y & HR) & _)])]; [left; exact Hd| |discriminate].
        apply HX in Hd as [Hd|[-> ->]]; [left; exact Hd|]. right. exists O, p. rewrite Nat.add_0_r. split; [lia|]. split; [exact Hdue|]. split; [reflexivity|]. split; [reflexivity|].
        exists st, st1, g. split; [reflexivity|]. split; [exact E1|exact HP].
      * right. exists (S k), p. rewrite <- plus_n_Sm. split; [lia|]. split; [exact Hdue|]. split; [reflexivity|]. split; [reflexivity|].
        exists stk, stk', g'. split; [apply HS, K1|]. auto.
    + intros [Hd|(k & p & Hk & Hdue & -> & -> & stk & stk' & g' & K1 & K2 & K3)].
      * left. destruct HP as [(_ & _ & ->)|(_ & [(p & _ & _ & _ & HX)|((y & HR) & _)])]; [exact Hd|apply HX; auto|discriminate].
      * destruct k as [|k].
        -- cbn [gen] in K1. injection K1 as <-. rewrite E1 in K2. injection K2 as <- <-. rewrite Nat.add_0_r in *.
           left. destruct HP as [(Hd & _)|(_ & [(p' & _ & HP & _ & HX)|((y & HR) & _)])]; [congruence| |discriminate].
           apply HX. right. split; [reflexivity|congruence].
        -- right. exists k, p. rewrite <- plus_n_Sm in *. split; [lia|]. split; [exact Hdue|]. split; [reflexivity|]. split; [reflexivity|].
           exists stk, stk', g'. split; [apply HS, K1|]. auto.
Qed.

(* ------------------------------------------------------------------ *)
(** ** C90 *)

(** The state in which the picture of an iteration is taken: the iteration starts with
    optimization o and simulation s, the objective and the gradient are computed, the design
    is not yet changed. *)
Definition evaluated (e : env) (o : opt) (s : sim) (o' : opt) (s' : sim) : Prop :=
  exists g, eval_step e (o, s) = ((o', s'), Ok g).

(** After a successful run of n steps of GD or ADAM the folder holds the directories that were
    there before and one picture for every iteration k < n with k mod it_plot = 0; picture k
    is drawn from the state reached by a run of k steps. *)
Theorem C90_files : forall e tp m n step b1 b2 o s d st' d', m = MGD \/ m = MADAM ->
  run_plt e (Some tp) m n step b1 b2 ((o, s), d) = ((st', d'), Ok tt) ->
  forall name x, In (name, x) d' <->
    (x = EDir /\ In (name, EDir) d) \/
    (exists k p, (k < n)%nat /\ (tp_it tp = O \/ (k mod tp_it tp = 0)%nat) /\ name = pic_name k /\ x = EPage p /\
       exists ok sk o' s', run e m k step b1 b2 (o, s) = ((ok, sk), Ok tt) /\ evaluated e ok sk o' s' /\ plot_page tp o' s' = Ok p).
Proof.
  intros e tp m n step b1 b2 o s d st' d' Hm H name x.
  assert (HD: forall k, due tp k = true <-> (tp_it tp = O \/ (k mod tp_it tp = 0)%nat)).
  { intro k. unfold due. rewrite orb_true_iff, !Nat.eqb_eq. reflexivity. }
  assert (HC: In (name, x) (clear_folder d) <-> x = EDir /\ In (name, EDir) d).
  { unfold clear_folder. rewrite filter_In. unfold is_dir. cbn [snd]. split; [intros [H1 H2]; destruct x; try discriminate; auto|intros [-> H1]; auto]. }
  unfold run_plt in H. cbn [fst snd] in H. destruct (s_rho s) as [| |rho] eqn:ER; [discriminate..|].
  destruct Hm as [-> | ->].
  - rewrite gen_GD_plt in H. apply gen_plt_files in H as [_ H]; [|apply inv_clear]. rewrite (H name x), HC. cbn [Nat.add].
    split; (intros [Hd|(k & p & Hk & Hdue & -> & -> & K)]; [left; exact Hd|right; exists k, p; split; [exact Hk|]; split; [apply HD, Hdue|]; split; [reflexivity|]; split; [reflexivity|]]).
    + destruct K as ([ok sk] & [o' s'] & g & K1 & K2 & K3). exists ok, sk, o', s'. split; [|split; [exists g; exact K2|exact K3]].
      unfold run. cbn [fst snd]. rewrite ER. cbv zeta. rewrite (gen_GD e step k 0). exact K1.
    + destruct K as (ok & sk & o' & s' & K1 & (g & K2) & K3). exists (ok, sk), (o', s'), g. split; [|split; [exact K2|exact K3]].
      unfold run in K1. cbn [fst snd] in K1. rewrite ER in K1. cbv zeta in K1. rewrite (gen_GD e step k 0) in K1. exact K1.
  - rewrite gen_ADAM_plt in H. apply gen_plt_files in H as [_ H]; [|apply inv_clear]. rewrite (H name x), HC. cbn [Nat.add].
    split; (intros [Hd|(k & p & Hk & Hdue & -> & -> & K)]; [left; exact Hd|right; exists k, p; split; [exact Hk|]; split; [apply HD, Hdue|]; split; [reflexivity|]; split; [reflexivity|]]).
    + destruct K as ([ok sk] & [o' s'] & g & K1 & K2 & K3). exists ok, sk, o', s'. split; [|split; [exists g; exact K2|exact K3]].
      unfold run. cbn [fst snd]. rewrite ER. cbv zeta. rewrite gen_ADAM. exact K1.
    + destruct K as (ok & sk & o' & s' & K1 & (g & K2) & K3). exists (ok, sk), (o', s'), g. split; [|split; [exact K2|exact K3]].
      unfold run in K1. cbn [fst snd] in K1. rewrite ER in K1. cbv zeta in K1. rewrite gen_ADAM in K1. exact K1.
Qed.

(** The pictures do not influence the optimization: a run with temp_plt that succeeds ends in the
    same state as the run without ... *)
Lemma maybe_plot_state tp i st d : fst (fst (maybe_plot tp i (st, d))) = st.
Proof.
  destruct tp as [tp|]; cbn [maybe_plot]; [|reflexivity]. destruct (due tp i); [|reflexivity]. unfold plot_it. cbn [fst snd].
  destruct (plot_page tp (fst st) (snd st)); [|reflexivity]. destruct (savefig _ _ _); reflexivity.
Qed.
Lemma gen_plt_state {A} e dir next step tp n : forall i (a : A) st d st' d', 
  gen_plt e dir next step tp n i a (st, d) = ((st', d'), Ok tt) -> gen e dir next step n i a st = (st', Ok tt).
Proof.
  induction n as [|n IH]; intros i a st d st' d' H; [cbn in H; injection H as <- <-; reflexivity|].
  cbn [gen_plt gen] in *. unfold bind in *. unfold off_disk at 1 in H. cbn [fst snd] in H.
  destruct (eval_step e st) as [st1 [g|x]]; [|discriminate]. assert (HP := maybe_plot_state tp i st1 d).
  destruct (maybe_plot tp i (st1, d)) as [[st2 d2] [[]|x]]; [|discriminate]. cbn [fst] in HP. subst st2.
  unfold off_disk in H. cbn [fst snd] in H. destruct (update_rho (dir a i g) step st1) as [st3 [[]|x]]; [|discriminate]. eapply IH, H.
Qed.
Lemma lb_plt_state e tp calls : forall k st d st' d' l, lb_serve_all_plt e tp k calls (st, d) = ((st', d'), Ok l) -> lb_serve_all e calls st = (st', Ok l).
Proof.
  induction calls as [|c calls IH]; intros k st d st' d' l H; [cbn in H; injection H as <- <- <-; reflexivity|].
  cbn [lb_serve_all_plt lb_serve_all] in *. unfold bind in *. unfold off_disk at 1 in H. cbn [fst snd] in H.
  destruct (lb_serve e c st) as [st1 [q|x]]; [|discriminate].
  assert (HX: forall k' d1, match lb_serve_all_plt e tp k' calls (st1, d1) with (s', Ok a) => ret (q :: a) s' | (s', Raise e0) => (s', Raise e0) end = ((st', d'), Ok l) ->
    match lb_serve_all e calls st1 with (s', Ok a) => ret (q :: a) s' | (s', Raise e0) => (s', Raise e0) end = (st', Ok l)).
  { intros k' d1 HX. destruct (lb_serve_all_plt e tp k' calls (st1, d1)) as [[st2 d2] [l2|y]] eqn:E; [|discriminate]. injection HX as <- <- <-. rewrite (IH _ _ _ _ _ _ E). reflexivity. }
  destruct c; [eapply HX, H|eapply HX, H|]. assert (HP := maybe_plot_state tp k st1 d).
  destruct (maybe_plot tp k (st1, d)) as [[st2 d2] [[]|y]]; [|discriminate]. cbn [fst] in HP. subst st2. eapply HX, H.
Qed.
Theorem C90_no_influence : forall e tp m n step b1 b2 st d st' d',
  run_plt e tp m n step b1 b2 (st, d) = ((st', d'), Ok tt) -> run e m n step b1 b2 st = (st', Ok tt).
Proof.
  intros e tp m n step b1 b2 st d st' d' H. unfold run_plt in H. cbn [fst snd] in H. unfold run. destruct (s_rho (snd st)) as [| |rho] eqn:ER; [discriminate..|].
  cbv zeta in *. destruct m as [calls x| | |]; [| | |discriminate].
  - unfold run_LBFGS_plt in H. unfold run_LBFGS. cbn [fst snd] in *. rewrite ER in *. unfold bind in *.
    destruct (lb_serve_all_plt e tp 0 calls _) as [[st2 d2] [l|y]] eqn:E; [|discriminate]. apply lb_plt_state in E. rewrite E.
    unfold off_disk in H. cbn [fst snd] in H. destruct (set_design_region x st2) as [st3 r]. injection H as <- _ <-. reflexivity.
  - rewrite gen_GD_plt in H. apply gen_plt_state in H. rewrite (gen_GD e step n 0). exact H.
  - rewrite gen_ADAM_plt in H. apply gen_plt_state in H. rewrite gen_ADAM. exact H.
Qed.
(** ... and without temp_plt nothing is written or removed, whatever the outcome. *)
Lemma gen_plt_none {A} e dir next step n : forall i (a : A) st d,
  gen_plt e dir next step None n i a (st, d) = ((fst (gen e dir next step n i a st), d), snd (gen e dir next step n i a st)).
Proof.
  induction n as [|n IH]; intros i a st d; [reflexivity|]. cbn [gen_plt gen maybe_plot]. unfold bind, off_disk, ret. cbn [fst snd].
  destruct (eval_step e st) as [st1 [g|x]]; [|reflexivity]. cbn [fst snd]. destruct (update_rho _ step st1) as [st3 [[]|x]]; [|reflexivity]. apply IH.
Qed.
Lemma lb_plt_none e calls : forall k st d,
  lb_serve_all_plt e None k calls (st, d) = ((fst (lb_serve_all e calls st), d), snd (lb_serve_all e calls st)).
Proof.
  induction calls as [|c calls IH]; intros k st d; [reflexivity|]. cbn [lb_serve_all_plt lb_serve_all maybe_plot]. unfold bind, off_disk. cbn [fst snd].
  destruct (lb_serve e c st) as [st1 [q|x]]; [|reflexivity]. destruct c; cbn [ret]; rewrite IH; destruct (lb_serve_all e calls st1) as [st2 [l|x']]; reflexivity.
Qed.
Theorem C90_without_temp_plt : forall e m n step b1 b2 st d,
  run_plt e None m n step b1 b2 (st, d) = ((fst (run e m n step b1 b2 st), d), snd (run e m n step b1 b2 st)).
Proof.
  intros e m n step b1 b2 st d. unfold run_plt, run. cbn [fst snd]. destruct (s_rho (snd st)) as [| |rho] eqn:ER; [reflexivity..|]. cbv zeta.
  destruct m as [calls x| | |]; [| | |reflexivity].
  - unfold run_LBFGS_plt, run_LBFGS. cbn [fst snd]. rewrite ER. unfold bind. rewrite lb_plt_none.
    destruct (lb_serve_all e calls _) as [st2 [l|y]]; [|reflexivity]. cbn [fst snd]. unfold off_disk. cbn [fst snd]. destruct (set_design_region x st2); reflexivity.
  - rewrite gen_GD_plt, gen_plt_none, (gen_GD e step n 0). reflexivity.
  - rewrite gen_ADAM_plt, gen_plt_none, gen_ADAM. reflexivity.
Qed.
(** Old files are gone whatever the outcome of the run; directories stay. *)
Lemma gen_plt_inv {A} e dir next step tp n : forall i (a : A) st d st' d' r, inv i d ->
  gen_plt e dir next step (Some tp) n i a (st, d) = ((st', d'), r) -> exists j, inv j d' /\
  (forall nm, In (nm, EDir) d' <-> In (nm, EDir) d) /\ forall nm x, In (nm, x) d' -> In (nm, x) d \/ exists p, x = EPage p.
Proof.
  induction n as [|n IH]; intros i a st d st' d' r HI H; [cbn in H; injection H as <- <- <-; exists i; split; [exact HI|split; [reflexivity|auto]]|].
  cbn [gen_plt] in H. unfold bind in H. unfold off_disk at 1 in H. cbn [fst snd] in H.
  destruct (eval_step e st) as [st1 [g|x]]; [|injection H as <- <- <-; exists i; split; [exact HI|split; [reflexivity|auto]]].
  destruct (maybe_plot (Some tp) i (st1, d)) as [[st2 d2] r2] eqn:E2.
  destruct (maybe_plot_spec _ _ _ _ _ _ _ HI E2) as (-> & I2 & HP).
  assert (HD: (forall nm, In (nm, EDir) d2 <-> In (nm, EDir) d) /\ forall nm x, In (nm, x) d2 -> In (nm, x) d \/ exists p, x = EPage p).
  { destruct HP as [(_ & _ & ->)|(_ & [(p & _ & _ & _ & HX)|(_ & ->)])]; [split; [reflexivity|auto]| |split; [reflexivity|auto]]. split.
    - intro nm. rewrite HX. split; [intros [E|[_ E]]; [exact E|discriminate]|auto].
    - intros nm x Hin. apply HX in Hin as [E|[_ E]]; [auto|right; eauto]. }
  destruct r2 as [[]|x]; [|injection H as <- <- <-; exists (S i); auto].
  unfold off_disk in H. cbn [fst snd] in H. destruct (update_rho (dir a i g) step st1) as [st3 [[]|x]]; [|injection H as <- <- <-; exists (S i); auto].
  destruct (IH _ _ _ _ _ _ _ I2 H) as (j & J1 & J2 & J3). exists j. split; [exact J1|]. destruct HD as [D1 D2]. split.
  - intro nm. rewrite J2, D1. reflexivity.
  - intros nm x Hin. apply J3 in Hin as [Hin|Hin]; auto.
Qed.
Lemma lb_plt_inv e tp calls : forall k st d st' d' r, inv k d -> lb_serve_all_plt e (Some tp) k calls (st, d) = ((st', d'), r) -> exists j, inv j d' /\
  (forall nm, In (nm, EDir) d' <-> In (nm, EDir) d) /\ forall nm x, In (nm, x) d' -> In (nm, x) d \/ exists p, x = EPage p.
Proof.
  induction calls as [|c calls IH]; intros k st d st' d' r HI H; [cbn in H; injection H as <- <- <-; exists k; split; [exact HI|split; [reflexivity|auto]]|].
  cbn [lb_serve_all_plt] in H. unfold bind in H. unfold off_disk at 1 in H. cbn [fst snd] in H.
  destruct (lb_serve e c st) as [st1 [q|x]]; [|injection H as <- <- <-; exists k; split; [exact HI|split; [reflexivity|auto]]].
  assert (HX: forall k' d1, inv k' d1 -> match lb_serve_all_plt e (Some tp) k' calls (st1, d1) with (s', Ok a) => ret (q :: a) s' | (s', Raise e0) => (s', Raise e0) end = ((st', d'), r) ->
    exists j, inv j d' /\ (forall nm, In (nm, EDir) d' <-> In (nm, EDir) d1) /\ forall nm x, In (nm, x) d' -> In (nm, x) d1 \/ exists p, x = EPage p).
  { intros k' d1 H1 HX. destruct (lb_serve_all_plt e (Some tp) k' calls (st1, d1)) as [[st2 d2] [l2|y]] eqn:E; injection HX as <- <- <-; eapply IH; eassumption. }
  destruct c; [eapply HX; eassumption|eapply HX; eassumption|].
  destruct (maybe_plot (Some tp) k (st1, d)) as [[st2 d2] r2] eqn:E2.
  destruct (maybe_plot_spec _ _ _ _ _ _ _ HI E2) as (-> & I2 & HP).
  assert (HD: (forall nm, In (nm, EDir) d2 <-> In (nm, EDir) d) /\ forall nm x, In (nm, x) d2 -> In (nm, x) d \/ exists p, x = EPage p).
  { destruct HP as [(_ & _ & ->)|(_ & [(p & _ & _ & _ & HQ)|(_ & ->)])]; [split; [reflexivity|auto]| |split; [reflexivity|auto]]. split.
    - intro nm. rewrite HQ. split; [intros [E|[_ E]]; [exact E|discriminate]|auto].
    - intros nm y Hin. apply HQ in Hin as [E|[_ E]]; [auto|right; eauto]. }
  destruct r2 as [[]|y]; [|injection H as <- <- <-; exists (S k); auto].
  destruct (HX _ _ I2 H) as (j & J1 & J2 & J3). exists j. split; [exact J1|]. destruct HD as [D1 D2]. split.
  - intro nm. rewrite J2, D1. reflexivity.
  - intros nm y Hin. apply J3 in Hin as [Hin|Hin]; auto.
Qed.
Theorem C90_old_files_removed : forall e tp m n step b1 b2 st d st' d' r,
  run_plt e (Some tp) m n step b1 b2 (st, d) = ((st', d'), r) ->
  (forall name, In (name, EDir) d' <-> In (name, EDir) d) /\
  (forall name x, In (name, x) d' -> x <> EDir -> exists p k, x = EPage p /\ name = pic_name k).
Proof.
  intros e tp m n step b1 b2 st d st' d' r H.
  assert (HC: forall nm, In (nm, EDir) (clear_folder d) <-> In (nm, EDir) d) by (intro nm; unfold clear_folder; rewrite filter_In; cbn; tauto).
  assert (HX: exists j, inv j d' /\ (forall nm, In (nm, EDir) d' <-> In (nm, EDir) (clear_folder d)) /\ forall nm x, In (nm, x) d' -> In (nm, x) (clear_folder d) \/ exists p, x = EPage p).
  { assert (H0: exists j, inv j (clear_folder d) /\ (forall nm, In (nm, EDir) (clear_folder d) <-> In (nm, EDir) (clear_folder d)) /\ forall nm x, In (nm, x) (clear_folder d) -> In (nm, x) (clear_folder d) \/ exists p, x = EPage p)
      by (exists O; split; [apply inv_clear|split; [reflexivity|auto]]).
    unfold run_plt in H. cbn [fst snd] in H. destruct (s_rho (snd st)) as [| |rho] eqn:ER; [injection H as _ <- _; exact H0..|]. cbv zeta in H.
    destruct m as [calls x| | |].
    - unfold run_LBFGS_plt in H. cbn [fst snd] in H. rewrite ER in H. unfold bind in H.
      destruct (lb_serve_all_plt e (Some tp) 0 calls _) as [[st2 d2] r2] eqn:E. apply lb_plt_inv in E; [|apply inv_clear].
      destruct r2 as [l|y]; [|injection H as _ <- _; exact E]. unfold off_disk in H. cbn [fst snd] in H. destruct (set_design_region x st2) as [st3 r3].
      injection H as _ <- _. exact E.
    - rewrite gen_GD_plt in H. apply gen_plt_inv in H; [exact H|apply inv_clear].
    - rewrite gen_ADAM_plt in H. apply gen_plt_inv in H; [exact H|apply inv_clear].
    - injection H as _ <- _. exact H0. }
  destruct HX as (j & J1 & J2 & J3). split; [intro nm; rewrite J2, HC; reflexivity|].
  intros nm x Hin Hne. destruct (J1 nm x Hin) as [E|(k & _ & ->)]; [contradiction|]. destruct (J3 _ _ Hin) as [Hc|(p & ->)]; [|eauto].
  exfalso. apply Hne. unfold clear_folder in Hc. apply filter_In in Hc as [_ Hc]. unfold is_dir in Hc. cbn in Hc. destruct x; try discriminate. reflexivity.
Qed.

(* ------------------------------------------------------------------ *)
(** ** What the pictures show *)
Lemma draw_panel_shape single vmin vmax o s n w p : draw_panel single vmin vmax o s n w = Ok p -> p = [] \/ exists pan, p = [(n, pan)].
Proof.
  unfold draw_panel.
  assert (HG: forall r : res panel, (if single then Raise TypeError else rbind r (fun p => Ok [(n, p)])) = Ok p -> p = [] \/ exists pan, p = [(n, pan)]).
  { intros r H. destruct single; [discriminate|]. destruct r as [q|x]; [|discriminate]. injection H as <-. right. eauto. }
  destruct (String.eqb w "eps"); [apply HG|]. destruct (String.eqb w "of"); [apply HG|]. destruct (String.eqb w "elin"); [apply HG|]. destruct (String.eqb w "enl"); [apply HG|].
  intro H. injection H as <-. left. reflexivity.
Qed.
Lemma draw_panels_spec single vmin vmax o s l : forall n p, draw_panels single vmin vmax o s n l = Ok p ->
  (forall j w, nth_error l j = Some w -> exists q, draw_panel single vmin vmax o s (n + j) w = Ok q /\ forall x, In x q -> In x p) /\
  (forall x, In x p -> exists j w q, nth_error l j = Some w /\ draw_panel single vmin vmax o s (n + j) w = Ok q /\ In x q).
Proof.
  induction l as [|w l IH]; intros n p H; cbn [draw_panels] in H.
  - injection H as <-. split; [intros [|j] w Hj; discriminate|intros x []].
  - destruct (draw_panel single vmin vmax o s n w) as [q|x] eqn:E1; [|discriminate]. cbn [rbind] in H.
    destruct (draw_panels single vmin vmax o s (S n) l) as [r|x] eqn:E2; [|discriminate]. cbn [rbind] in H. injection H as <-.
    destruct (IH _ _ E2) as [I1 I2]. split.
    + intros [|j] w' Hj; cbn [nth_error] in Hj.
      * injection Hj as <-. rewrite Nat.add_0_r. exists q. split; [exact E1|]. intros x Hx. apply in_or_app; auto.
      * rewrite <- plus_n_Sm. destruct (I1 j w' Hj) as (q' & Q1 & Q2). exists q'. split; [exact Q1|]. intros x Hx. apply in_or_app; auto.
    + intros x Hx. apply in_app_or in Hx as [Hx|Hx].
      * exists O, w, q. rewrite Nat.add_0_r. auto.
      * destruct (I2 x Hx) as (j & w' & q' & Q1 & Q2 & Q3). exists (S j), w', q'. rewrite <- plus_n_Sm. auto.
Qed.

Lemma grad_loop_fields e o l : forall acc s s' r, grad_loop e o l acc s = (s', r) -> s_fields s' = s_fields s.
Proof.
  induction l as [|[[f dJ] a] l IH]; intros acc s s' r H; cbn [grad_loop] in H; [injection H as <- <-; reflexivity|].
  destruct (run_grad _ _ _ _ _ _ _) as [s1 [g|x]] eqn:E.
  - assert (E1: s_fields s1 = s_fields s).
    { destruct f; cbn [run_grad] in E; try (injection E as <- _; reflexivity). unfold g_kerr_Ez in E. destruct (dJ _); [|discriminate].
      destruct (adjoint_kerr_Ez _ _ _); [|discriminate]. destruct (if oa_nl a then _ else _); [|discriminate]. injection E as <- _. reflexivity. }
    apply IH in H. congruence.
  - injection H as <- <-. destruct f; cbn [run_grad] in E; try (injection E as <- _; reflexivity). unfold g_kerr_Ez in E. destruct (dJ _); [|injection E as <- _; reflexivity].
    destruct (adjoint_kerr_Ez _ _ _); [|injection E as <- _; reflexivity]. destruct (if oa_nl a then _ else _); injection E as <- _; reflexivity.
Qed.
(** fields stored by a linear solve *)
Definition lin_stored (e : env) (s : sim) : Prop :=
  exists X, s_fields s (pol_comp (s_pol s)) = Some X /\ solver_direct e (s_M s) (s_A s) (rhs s) (DEFAULT_SOLVER e) = Ok X.
Lemma lin_stored_solve e s s' F : solve_fields e false false s = (s', Ok F) -> lin_stored e s'.
Proof.
  intro H. apply solve_fields_lin_state in H as [HP [(H & _)|(_ & X & HX & HS & _)]]; [discriminate|].
  exists X. destruct (same_rhs _ _ HP) as (-> & -> & _ & ->). destruct HP as (_ & _ & _ & _ & _ & _ & _ & _ & _ & _ & _ & -> & _). split; [|exact HX].
  rewrite HS. destruct (s_pol s); reflexivity.
Qed.
Lemma lin_stored_same e s s' : same_problem s s' -> s_fields s' = s_fields s -> lin_stored e s -> lin_stored e s'.
Proof.
  intros HP HF (X & H1 & H2). exists X. rewrite HF. destruct (same_rhs _ _ HP) as (-> & -> & _ & ->). destruct HP as (_ & _ & _ & _ & _ & _ & _ & _ & _ & _ & _ & -> & _). auto.
Qed.
Lemma compute_dJ_fields e o s o' s' g : o_current o = false -> compute_dJ e (o, s) = ((o', s'), Ok g) -> lin_stored e s'.
Proof.
  intros Hc H. unfold compute_dJ in H. destruct (solve_arg_fields e (o, s)) as [[o1 s1] [[]|x]] eqn:E; [|discriminate].
  destruct (grad_loop _ _ _ _ _) as [s2 r2] eqn:E2. injection H as <- <- ->.
  apply (lin_stored_same e s1 s2); [apply (grad_loop_frame _ _ _ _ _ _ _ E2)|eapply grad_loop_fields, E2|].
  unfold solve_arg_fields, needs_solve in E. rewrite Hc in E. cbn [negb] in E.
  destruct (solve_fields e false false s) as [s3 [F|x]] eqn:E3; [|discriminate]. assert (L3 := lin_stored_solve _ _ _ _ E3).
  destruct (is_linear (o_objective o)).
  - destruct (arg_fields s3 _); [|discriminate]. injection E as <- <-. exact L3.
  - destruct (solve_fields_nl_default e s3) as [s4 [F4|x]] eqn:E4; [|discriminate]. destruct (arg_fields s4 _); [|discriminate]. injection E as <- <-.
    unfold solve_fields_nl_default in E4. apply solve_nl_step in E4 as [HP [HF|(s5 & F5 & H5 & HF)]].
    + eapply lin_stored_same; eassumption.
    + apply (lin_stored_same e s5 s4); [|exact HF|eapply lin_stored_solve, H5].
      apply solve_fields_lin_state in H5 as [HP5 _]. unfold same_problem in *. intuition congruence.
Qed.
(** what an evaluation does: one more objective, the permittivity unchanged, fresh linear fields *)
Lemma evaluated_facts e o s o' s' : o_current o = false -> evaluated e o s o' s' ->
  (exists v, fresh_J e o s = Ok v /\ o_objs o' = (o_objs o ++ [v])%list) /\
  struct s s' /\ lin_stored e s' /\ (o_max_shift o = None -> same_problem s s').
Proof.
  intros Hc (g & H). split; [|split; [|split]].
  - destruct (eval_step_objs e o s o' s' _ Hc H) as [(_ & x & Hx)|Hv]; [discriminate|exact Hv].
  - apply eval_step_frame in H. apply H.
  - unfold eval_step, bind, modS in H. destruct (compute_J e (o, s)) as [[o1 s1] [J|x]]; [|discriminate]. cbn [fst snd] in H.
    destruct (set_source_amplitude e (push_obj J o1, s1)) as [[o2 s2] [[]|x]] eqn:E2; [|discriminate].
    apply set_amp_frame in E2 as (_ & _ & _ & _ & K & _). eapply compute_dJ_fields; [apply K; reflexivity|exact H].
  - intro Hm. unfold eval_step, bind, modS in H. destruct (compute_J e (o, s)) as [[o1 s1] [J|x]] eqn:E1; [|discriminate]. cbn [fst snd] in H.
    apply compute_J_frame in E1 as (C1 & [S1 _] & _).
    destruct (set_source_amplitude e (push_obj J o1, s1)) as [[o2 s2] [[]|x]] eqn:E2; [|discriminate].
    apply set_amp_frame in E2 as (_ & _ & _ & _ & _ & K). destruct K as [_ ->]; [destruct C1 as (_ & _ & _ & _ & _ & _ & _ & _ & C9); cbn [push_obj o_max_shift]; congruence|].
    apply compute_dJ_frame in H as (_ & [S3 _] & _). eapply same_trans; eassumption.
Qed.

(** the k-th of the values l is drawn at (k, l_k), k = 1, 2, ... *)
Definition numbered (l : list R) : list (nat * option R) := List.combine (List.seq 1 (List.length l)) (List.map Some l).

(** A picture p taken in an iteration that starts with o and s.  The panel in position i is the one
    named by the i-th entry of plot_what: 'eps' the permittivity of s; 'of' all objectives up to
    and including that of s; 'elin' the modulus of the linear field of s' (s with its source
    rescaled if max_ind_shift is given); 'enl' that of the stored nonlinear field.  Both field
    panels have the same colour scale, from 4 sqrt(W_in) to the largest |Ez| over 1.5. *)
Definition field_scale (s : sim) (q : picture) : Prop :=
  exists W E m, s_W_in s = Val W /\ s_fields s Ez = Some E /\ largest (fun i j => Cmod (fld s E i j)) (s_Nx s) (s_Ny s) m /\
    pc_vmin q = (4 * sqrt W)%R /\ pc_vmax q = (m / (3 / 2))%R.
Definition panel_right (e : env) (o : opt) (s s' : sim) (w : string) (q : panel) : Prop :=
  match q with
  | PanEps q => w = "eps"%string /\ shows (pc_data q) (s_Nx s) (s_Ny s) 1 (fun i j => Rabs (eps_at s i j))
  | PanObjs l => w = "of"%string /\ exists v, fresh_J e o s = Ok v /\ l = numbered (o_objs o ++ [v])
  | PanLin q => w = "elin"%string /\ exists X, solver_direct e (s_M s) (s_A s) (rhs s') (DEFAULT_SOLVER e) = Ok X /\
                  shows (pc_data q) (s_Nx s) (s_Ny s) 1 (fun i j => Cmod (fld s X i j)) /\ field_scale s' q
  | PanNl q => w = "enl"%string /\ exists G, s_fields_nl s' (pol_comp (s_pol s)) = Some G /\
                  shows (pc_data q) (s_Nx s) (s_Ny s) 1 (fun i j => Cmod (fld s G i j)) /\ field_scale s' q
  end.
Definition known (w : string) : Prop := w = "eps"%string \/ w = "of"%string \/ w = "elin"%string \/ w = "enl"%string.
Theorem C90_contents : forall e tp o s o' s' p, o_current o = false -> shaped s ->
  evaluated e o s o' s' -> plot_page tp o' s' = Ok p ->
  (forall i w, nth_error (tp_what tp) i = Some w -> known w -> exists q, In (i, q) p /\ panel_right e o s s' w q) /\
  (forall i q, In (i, q) p -> exists w, nth_error (tp_what tp) i = Some w /\ panel_right e o s s' w q).
Proof.
  intros e tp o s o' s' p Hc HS HE HP. destruct (evaluated_facts e o s o' s' Hc HE) as ((v & Hv & Ho) & ([src HB] & _) & (X & HX & HD) & _).
  unfold plot_page in HP. destruct (s_W_in s') as [| |W] eqn:EW; [discriminate..|]. destruct (s_fields s' Ez) as [E|] eqn:EE; [|discriminate].
  destruct (nd_max _) as [mx|] eqn:EMX in HP; [|discriminate]. cbn [rbind] in HP.
  assert (HP': exists sg, draw_panels sg (4 * sqrt W)%R (mx / 1.5)%R o' s' 0 (tp_what tp) = Ok p).
  { destruct (tp_what tp) as [|w l]; [discriminate|]. eexists. exact HP. }
  clear HP. destruct HP' as (sg & HP). set (lo := (4 * sqrt W)%R) in *. set (hi := (mx / 1.5)%R) in *. destruct (draw_panels_spec _ _ _ _ _ _ _ _ HP) as [D1 D2].
  destruct HB as (_ & _ & _ & Bp & _ & BNx & BNy & _ & _ & _ & Be & BA & _). cbn [upd_src s_pol s_Nx s_Ny s_eps s_A] in *.
  assert (HS': shaped s') by (destruct HS as (S1 & S2 & S3 & S4); unfold shaped; rewrite Be, BNx, BNy; auto).
  assert (EM: s_M s' = s_M s) by (unfold s_M; rewrite BNx, BNy; reflexivity).
  assert (SC: forall q, pc_vmin q = lo -> pc_vmax q = hi -> field_scale s' q).
  { intros q Q1 Q2. exists W, E, mx. split; [exact EW|]. split; [exact EE|]. pose proof HS' as (_ & _ & S3 & S4).
    destruct (nd_max_spec (nd_map Cmod (s_arr s' E))) as (v' & Hv' & HB & k & Hk & Ek); [unfold nd_size; cbn; nia|].
    rewrite EMX in Hv'. injection Hv' as <-. split; [|split; [exact Q1|rewrite Q2; unfold hi; lra]].
    unfold nd_size in HB, Hk. cbn [nd_map nd_nx nd_ny nd_buf s_arr] in HB, Hk, Ek.
    split; [|intros i j Hi Hj; apply (HB (pix (s_Ny s') i j)); unfold pix; nia].
    exists (k / s_Ny s')%nat, (k mod s_Ny s')%nat. split; [apply Nat.div_lt_upper_bound; nia|]. split; [apply Nat.mod_upper_bound; lia|].
    rewrite <- Ek. unfold fld, pix. do 2 f_equal. rewrite (Nat.mul_comm (k / s_Ny s')). symmetry. apply Nat.div_mod. lia. }
  assert (HR: forall i w q, draw_panel sg lo hi o' s' i w = Ok q -> forall x, In x q -> exists pan, x = (i, pan) /\ panel_right e o s s' w pan).
  { intros i w q Hq x Hx. unfold draw_panel in Hq. destruct sg.
    { destruct (String.eqb w "eps"), (String.eqb w "of"), (String.eqb w "elin"), (String.eqb w "enl"); try discriminate. injection Hq as <-. destruct Hx. }
    destruct (String.eqb_spec w "eps") as [->|_].
    { destruct (C87_plt_eps s' false 1 HS' ltac:(lia)) as (pc & Hpc & SH & _). rewrite Hpc in Hq. injection Hq as <-. destruct Hx as [<-|[]].
      eexists. split; [reflexivity|]. split; [reflexivity|]. unfold eps_at in SH. rewrite Be, BNx, BNy in SH. exact SH. }
    destruct (String.eqb_spec w "of") as [->|_].
    { unfold plt_objs in Hq. cbn [obj_scaled] in Hq. rewrite map_length, Nat.eqb_refl in Hq. injection Hq as <-. destruct Hx as [<-|[]].
      eexists. split; [reflexivity|]. split; [reflexivity|]. exists v. split; [exact Hv|]. rewrite Ho. reflexivity. }
    destruct (String.eqb_spec w "elin") as [->|_].
    { destruct (C87_plt_abs s' false true (Some lo) (Some hi) 1 X X HS' ltac:(lia) HX HX) as (pc & Hpc & SH & _ & L1 & L2 & _). rewrite Hpc in Hq. injection Hq as <-. destruct Hx as [<-|[]].
      eexists. split; [reflexivity|]. split; [reflexivity|]. exists X. rewrite EM, BA in HD. split; [exact HD|]. split; [|apply SC; [apply L1|apply L2]; reflexivity].
      unfold fld in *. rewrite BNx, BNy in SH. exact SH. }
    destruct (String.eqb_spec w "enl") as [->|_].
    { destruct (s_field s' true) as [G|] eqn:EG.
      - destruct (C87_plt_abs s' true true (Some lo) (Some hi) 1 G X HS' ltac:(lia) HX EG) as (pc & Hpc & SH & _ & L1 & L2 & _). rewrite Hpc in Hq. injection Hq as <-. destruct Hx as [<-|[]].
        eexists. split; [reflexivity|]. split; [reflexivity|]. exists G. unfold s_field in EG. rewrite Bp in EG. split; [exact EG|]. split; [|apply SC; [apply L1|apply L2]; reflexivity]. unfold fld in *. rewrite BNx, BNy in SH. exact SH.
      - exfalso. unfold plt_abs in Hq. unfold s_field at 1 in Hq. rewrite HX in Hq. cbn [nd_tile rbind] in Hq. rewrite EG in Hq. discriminate. }
    injection Hq as <-. destruct Hx. }
  split.
  - intros i w Hw Hk. destruct (D1 i w Hw) as (q & Hq & HI). cbn [Nat.add] in Hq.
    assert (HN: exists x, In x q).
    { destruct (draw_panel_shape _ _ _ _ _ _ _ _ Hq) as [->|(pan & ->)]; [|eexists; left; reflexivity]. exfalso.
      unfold draw_panel in Hq. destruct sg; destruct Hk as [->|[->|[->|Ek]]]; try subst w; cbn [String.eqb Ascii.eqb Bool.eqb] in Hq; try discriminate;
      match type of Hq with rbind ?r _ = _ => destruct r; discriminate end. }
    destruct HN as [x Hx]. destruct (HR _ _ _ Hq x Hx) as (pan & -> & Hpan). exists pan. split; [apply HI, Hx|exact Hpan].
  - intros i q Hq. destruct (D2 _ Hq) as (j & w & q' & Hw & Hd & Hin). destruct (HR _ _ _ Hd _ Hin) as (pan & Ex & Hpan). cbn [Nat.add] in Ex. injection Ex as -> ->. eauto.
Qed.

(* ------------------------------------------------------------------ *)
(** ** When pictures can be drawn *)
Lemma plot_page_ok tp o s W X : s_W_in s = Val W -> s_pol s = PolEz -> s_fields s Ez = Some X -> shaped s ->
  (2 <= List.length (tp_what tp))%nat -> ~ In "enl"%string (tp_what tp) -> exists p, plot_page tp o s = Ok p.
Proof.
  intros HW Hp HX HS HL HN. unfold plot_page. rewrite HW, HX. pose proof HS as (_ & _ & S3 & S4).
  destruct (nd_max_spec (nd_map Cmod (s_arr s X))) as (v & -> & _); [unfold nd_size; cbn; nia|]. cbn [rbind].
  assert (HD: forall lo hi l n, ~ In "enl"%string l -> exists p, draw_panels false lo hi o s n l = Ok p).
  { intros lo hi l. induction l as [|w l IH]; intros n Hn; [eexists; reflexivity|]. cbn [draw_panels].
    destruct (IH (S n) ltac:(intro; apply Hn; right; assumption)) as [q Hq]. rewrite Hq.
    assert (HP: exists p, draw_panel false lo hi o s n w = Ok p).
    { unfold draw_panel. destruct (String.eqb_spec w "eps") as [_|_].
      { destruct (C87_plt_eps s false 1 HS ltac:(lia)) as (pc & -> & _). eexists; reflexivity. }
      destruct (String.eqb_spec w "of") as [_|_].
      { unfold plt_objs. cbn [obj_scaled]. rewrite map_length, Nat.eqb_refl. eexists; reflexivity. }
      destruct (String.eqb_spec w "elin") as [_|_].
      { assert (HX': s_fields s (pol_comp (s_pol s)) = Some X) by (rewrite Hp; exact HX).
        destruct (C87_plt_abs s false true (Some lo) (Some hi) 1 X X HS ltac:(lia) HX' HX') as (pc & -> & _). eexists; reflexivity. }
      destruct (String.eqb_spec w "enl") as [->|_]; [exfalso; apply Hn; left; reflexivity|]. eexists; reflexivity. }
    destruct HP as [p ->]. eexists. reflexivity. }
  destruct (tp_what tp) as [|w [|w' l]] eqn:E; [cbn in HL; lia|cbn in HL; lia|].
  change (Nat.eqb (List.length (w :: w' :: l)) 1) with false. apply HD, HN.
Qed.
Lemma savefig_ok i p d : inv i d -> ~ In (pic_name i, EDir) d -> exists d', savefig (pic_name i) p d = Ok d'.
Proof.
  intros HI HN. unfold savefig. destruct (List.find _ d) as [[nm x]|] eqn:E; [|eexists; reflexivity].
  apply find_some in E as [E1 E2]. cbn [fst] in E2. apply String.eqb_eq in E2. subst nm. destruct x; try (eexists; reflexivity). contradiction.
Qed.
Lemma gen_plt_ok {A} e dir next step tp J args W : (2 <= List.length (tp_what tp))%nat -> ~ In "enl"%string (tp_what tp) ->
  forall n i (a : A) o s d, lin_ready J args o s -> o_current o = false -> s_W_in s = Val W -> shaped s -> inv i d ->
  (forall k, (i <= k < i + n)%nat -> due tp k = true -> ~ In (pic_name k, EDir) d) ->
  exists st' d', gen_plt e dir next step (Some tp) n i a ((o, s), d) = ((st', d'), Ok tt).
Proof.
  intros HL HN. induction n as [|n IH]; intros i a o s d HR Hc HW HS HI HD; [do 2 eexists; reflexivity|].
  destruct (eval_step_ok e J args o s HR Hc) as (o1 & s1 & g & E1 & R1).
  destruct (evaluated_facts e o s o1 s1 Hc) as (_ & _ & (X & HX & _) & HP); [exists g; exact E1|].
  destruct (HP ltac:(apply HR)) as (_ & _ & _ & Pp & _ & PNx & PNy & _ & _ & _ & Pe & _ & _ & _ & _ & _ & PW).
  assert (HS1: shaped s1) by (unfold shaped; rewrite Pe, PNx, PNy; exact HS).
  assert (Ep: s_pol s1 = PolEz) by (apply R1). rewrite Ep in HX.
  assert (HMP: exists d1, maybe_plot (Some tp) i ((o1, s1), d) = (((o1, s1), d1), Ok tt)).
  { cbn [maybe_plot]. destruct (due tp i) eqn:ED; [|exists d; reflexivity]. unfold plot_it. cbn [fst snd].
    destruct (plot_page_ok tp o1 s1 W X) as [p ->]; try assumption; [congruence|].
    destruct (savefig_ok i p d HI) as [d1 ->]; [apply HD; [lia|exact ED]|]. exists d1. reflexivity. }
  destruct HMP as [d1 HMP]. destruct (maybe_plot_spec _ _ _ _ _ _ _ HI HMP) as (_ & I1 & HF).
  destruct (update_rho_ok J args (dir a i g) step o1 s1 R1) as (o2 & s2 & E2 & R2 & Hc2).
  assert (E2' := E2). apply update_rho_spec in E2' as [(_ & rho & Hr & Es)|((x & Hx) & _)]; [|discriminate]. injection Es as Eo Es.
  assert (HW2: s_W_in s2 = Val W) by (rewrite Es; cbn; congruence).
  assert (HS2: shaped s2). { rewrite Es. destruct HS1 as (S1 & S2 & S3 & S4). repeat split; assumption. }
  destruct (IH (S i) (next a g) o2 s2 d1 R2 Hc2 HW2 HS2 I1) as (st' & d' & E3).
  { intros k Hk Hdue Hin. destruct HF as [(_ & _ & ->)|(_ & [(p & _ & _ & _ & HX')|(_ & ->)])].
    - apply (HD k ltac:(lia) Hdue Hin).
    - apply HX' in Hin as [Hin|[_ E]]; [apply (HD k ltac:(lia) Hdue Hin)|discriminate].
    - apply (HD k ltac:(lia) Hdue Hin). }
  exists st', d'. cbn [gen_plt]. unfold bind. unfold off_disk at 1. cbn [fst snd]. rewrite E1, HMP. unfold off_disk. cbn [fst snd]. rewrite E2. exact E3.
Qed.
(** For objectives of linear Ez fields a run with pictures of at least two panels succeeds as soon as
    the input power has been computed (W_in) and no directory carries the name of a picture. *)
Theorem C90_run_succeeds : forall e tp m n step b1 b2 J args o s d W, m = MGD \/ m = MADAM ->
  lin_ready J args o s -> shaped s -> s_W_in s = Val W ->
  (2 <= List.length (tp_what tp))%nat -> ~ In "enl"%string (tp_what tp) ->
  (forall k, ~ In (pic_name k, EDir) d) ->
  exists st' d', run_plt e (Some tp) m n step b1 b2 ((o, s), d) = ((st', d'), Ok tt).
Proof.
  intros e tp m n step b1 b2 J args o s d W Hm HR HS HW HL HN HD. assert (HR' := HR). destruct HR' as (_ & _ & (rho & Hr) & _).
  assert (HD': forall k, ~ In (pic_name k, EDir) (clear_folder d)) by (intros k Hin; apply filter_In in Hin as [Hin _]; exact (HD k Hin)).
  unfold run_plt. cbn [fst snd]. rewrite Hr. cbv zeta.
  destruct Hm as [-> | ->]; [rewrite gen_GD_plt|rewrite gen_ADAM_plt]; apply (gen_plt_ok e _ _ step tp J args W HL HN); try assumption; try reflexivity; try apply inv_clear; intros; apply HD'.
Qed.
(** Otherwise the first picture, due before the first update, stops the run with the design
    unchanged ... *)
Theorem C90_first_picture_fails : forall e tp m n step b1 b2 o s d rho o1 s1 x, m = MGD \/ m = MADAM ->
  s_rho s = Val rho -> evaluated e (upd_current false o) s o1 s1 -> plot_page tp o1 s1 = Raise x ->
  run_plt e (Some tp) m (S n) step b1 b2 ((o, s), d) = (((o1, s1), clear_folder d), Raise x) /\ s_rho s1 = Val rho /\ s_eps s1 = s_eps s.
Proof.
  intros e tp m n step b1 b2 o s d rho o1 s1 x Hm Hr [g HE] HP. split.
  - unfold run_plt. cbn [fst snd]. rewrite Hr. cbv zeta.
    assert (HD: due tp 0 = true) by (unfold due; destruct (tp_it tp) as [|k]; [reflexivity|rewrite Nat.mod_0_l by lia; reflexivity]).
    destruct Hm as [-> | ->]; [rewrite gen_GD_plt|rewrite gen_ADAM_plt]; cbn [gen_plt]; unfold bind; unfold off_disk at 1; cbn [fst snd]; rewrite HE; cbn [maybe_plot]; rewrite HD; unfold plot_it; cbn [fst snd]; rewrite HP; reflexivity.
  - apply eval_step_frame in HE as [_ [[v HB] _]]. destruct HB as (_ & _ & _ & _ & _ & _ & _ & _ & _ & _ & He & _ & _ & _ & _ & Hr' & _). cbn in He, Hr'. split; congruence.
Qed.
(** ... and this is what happens: without W_in an AttributeError, in Hz polarization a TypeError,
    with a tuple of one known name a TypeError; the default plot_what='eps', a string, gives
    an empty figure instead of the permittivity. *)
Theorem C90_page_failures : forall tp o s,
  ((forall W, s_W_in s <> Val W) -> plot_page tp o s = Raise AttributeError) /\
  (forall W, s_W_in s = Val W -> s_fields s Ez = None -> plot_page tp o s = Raise TypeError) /\
  (forall W X w, s_W_in s = Val W -> s_fields s Ez = Some X -> shaped s -> tp_what tp = [w] -> known w -> plot_page tp o s = Raise TypeError) /\
  (forall W X, s_W_in s = Val W -> s_fields s Ez = Some X -> shaped s -> tp_what tp = [] -> plot_page tp o s = Raise ValueError).
Proof.
  intros tp o s. split; [|split; [|split]].
  - intro H. unfold plot_page. destruct (s_W_in s) as [| |W]; [reflexivity..|]. exfalso. apply (H W). reflexivity.
  - intros W HW HX. unfold plot_page. rewrite HW, HX. reflexivity.
  - intros W X w HW HX HS Hw Hk. unfold plot_page. rewrite HW, HX, Hw. pose proof HS as (_ & _ & S3 & S4).
    destruct (nd_max_spec (nd_map Cmod (s_arr s X))) as (v & -> & _); [unfold nd_size; cbn; nia|]. cbn [rbind List.length Nat.eqb draw_panels].
    unfold draw_panel. destruct Hk as [->|[->|[->|Hk]]]; try reflexivity. subst w. reflexivity.
  - intros W X HW HX HS Hw. unfold plot_page. rewrite HW, HX, Hw. pose proof HS as (_ & _ & S3 & S4).
    destruct (nd_max_spec (nd_map Cmod (s_arr s X))) as (v & -> & _); [unfold nd_size; cbn; nia|]. reflexivity.
Qed.
Theorem C90_default_figure_empty : forall o s p, plot_page Temp_plt_default o s = Ok p -> p = [].
Proof.
  intros o s p H. unfold plot_page in H. destruct (s_W_in s) as [| |W]; [discriminate..|]. destruct (s_fields s Ez); [|discriminate].
  destruct (nd_max _); [|discriminate]. cbn [rbind] in H. cbv in H. injection H as <-. reflexivity.
Qed.
(** Hz polarization: the fields of an evaluated simulation do not include 'Ez' *)
Theorem C90_Hz_fails : forall e tp o s o' s' W, s_pol s = PolHz -> tidy s -> s_W_in s = Val W -> evaluated e o s o' s' -> plot_page tp o' s' = Raise TypeError.
Proof.
  intros e tp o s o' s' W Hp HT HW [g HE]. apply eval_step_frame in HE as [_ [[v HB] HT']].
  destruct HB as (_ & _ & _ & Bp & _ & _ & _ & _ & _ & _ & _ & _ & _ & _ & _ & _ & BW). cbn in Bp, BW.
  apply (proj1 (proj2 (C90_page_failures tp o' s')) W); [congruence|]. apply (HT' HT Ez). rewrite Bp, Hp. intros [|[|]]; discriminate.
Qed.


Lemma gen_plt_all {A} e dir next step tp n : forall i (a : A) st d st' d', inv i d ->
  gen_plt e dir next step (Some tp) n i a (st, d) = ((st', d'), Ok tt) ->
  forall k, (i <= k < i + n)%nat -> due tp k = true -> exists p, In (pic_name k, EPage p) d'.
Proof.
  induction n as [|n IH]; intros i a st d st' d' HI H k Hk Hdue; [lia|].
  cbn [gen_plt] in H. unfold bind in H. unfold off_disk at 1 in H. cbn [fst snd] in H.
  destruct (eval_step e st) as [st1 [g|x]] eqn:E1; [|discriminate].
  destruct (maybe_plot (Some tp) i (st1, d)) as [[st2 d2] [[]|x]] eqn:E2; [|discriminate].
  destruct (maybe_plot_spec _ _ _ _ _ _ _ HI E2) as (-> & I2 & HP).
  unfold off_disk in H. cbn [fst snd] in H. destruct (update_rho (dir a i g) step st1) as [st3 [[]|x]] eqn:E3; [|discriminate].
  destruct (Nat.eq_dec k i) as [->|Hne]; [|apply (IH _ _ _ _ _ _ I2 H); [lia|exact Hdue]].
  destruct (gen_plt_files _ _ _ _ _ _ _ _ _ _ _ _ I2 H) as [_ G].
  destruct HP as [(E & _)|(_ & [(p & _ & _ & _ & HX)|((y & HR) & _)])]; [congruence| |discriminate].
  exists p. apply G. left. apply HX. auto.
Qed.
(** a run that succeeds has written a picture for every due iteration *)
Theorem C90_every_due_iteration : forall e tp m n step b1 b2 o s d st' d', m = MGD \/ m = MADAM ->
  run_plt e (Some tp) m n step b1 b2 ((o, s), d) = ((st', d'), Ok tt) ->
  forall k, (k < n)%nat -> (tp_it tp = O \/ (k mod tp_it tp = 0)%nat) -> exists p, In (pic_name k, EPage p) d'.
Proof.
  intros e tp m n step b1 b2 o s d st' d' Hm H k Hk Hd.
  assert (HD: due tp k = true) by (unfold due; rewrite orb_true_iff, !Nat.eqb_eq; exact Hd).
  unfold run_plt in H. cbn [fst snd] in H. destruct (s_rho s) as [| |rho] eqn:ER; [discriminate..|].
  destruct Hm as [-> | ->]; [rewrite gen_GD_plt in H|rewrite gen_ADAM_plt in H]; eapply (gen_plt_all _ _ _ _ _ _ _ _ _ _ _ _ (inv_clear d) H); try exact HD; lia.
Qed.
(** Temp_plt() with its defaults: every iteration of a run that succeeds has left an empty picture *)
Theorem C90_default_every_iteration : forall e m n step b1 b2 o s d st' d', m = MGD \/ m = MADAM ->
  run_plt e (Some Temp_plt_default) m n step b1 b2 ((o, s), d) = ((st', d'), Ok tt) ->
  forall k, (k < n)%nat -> In (pic_name k, EPage []) d'.
Proof.
  intros e m n step b1 b2 o s d st' d' Hm H k Hk.
  destruct (C90_every_due_iteration _ _ _ _ _ _ _ _ _ _ _ _ Hm H k Hk) as [p Hp]; [right; apply Nat.mod_1_r|].
  assert (HF := proj1 (C90_files _ _ _ _ _ _ _ _ _ _ _ _ Hm H _ _) Hp). destruct HF as [[HN _]|(k' & p' & _ & _ & _ & E & HX)]; [discriminate|].
  injection E as E. subst p'.
  assert (p = []) as ->; [|exact Hp].
  repeat match goal with X : exists _, _ |- _ => destruct X | X : _ /\ _ |- _ => destruct X end.
  eapply C90_default_figure_empty; eassumption.
Qed.
(** three panels, a picture every second iteration, old files in the folder *)
Example C90_met : exists s0 o, fam_sim "Ez" 5 4 1 1 (fun _ => 1%R) = Ok s0 /\
  let s := upd_W_in 1 (ex_run_sim o s0) in let tp := mkTemp 2 ["eps"; "of"; "elin"]%string in
  let d := [("it000007.png", EFile); ("old", EDir)]%string in
  shaped s /\ forall e m step b1 b2, m = MGD \/ m = MADAM -> exists st' d' p q,
    run_plt e (Some tp) m 3 step b1 b2 ((o, s), d) = ((st', d'), Ok tt) /\
    In ("old", EDir)%string d' /\ In ("it000000.png", EPage p)%string d' /\ In ("it000002.png", EPage q)%string d' /\
    (forall x, ~ In ("it000001.png"%string, x) d') /\ (forall x, ~ In ("it000007.png"%string, x) d').
Proof.
  destruct run_example as (s0 & ob & o & H0 & HO & HOpt & HR & HV & HC & HM & HN). exists s0, o. split; [exact H0|]. cbv zeta.
  set (s := upd_W_in 1 (ex_run_sim o s0)). set (tp := mkTemp 2 _). set (d := [_; _]).
  assert (HS: shaped s).
  { destruct HC as (C1 & C2 & _). destruct (Simulation_fields _ _ _ _ _ _ _ H0) as (_ & _ & E3 & E4 & _). split; [symmetry; exact C1|]. split; [symmetry; exact C2|].
    change (s_Nx s) with (s_Nx s0). change (s_Ny s) with (s_Ny s0). rewrite E3, E4. cbn. lia. }
  split; [exact HS|]. intros e m step b1 b2 Hm.
  assert (HRs: lin_ready (intensity 20 1) [Ez_lin] o s) by exact HR.
  assert (HK: forall k, ~ In (pic_name k, EDir) d).
  { intros k [E|[E|[]]]; injection E as E; try discriminate. }
  destruct (C90_run_succeeds e tp m 3 step b1 b2 _ _ o s d 1%R Hm HRs HS eq_refl) as (st' & d' & HRun); [cbn; lia|intros [E|[E|[E|[]]]]; discriminate|exact HK|].
  assert (HF := C90_files e tp m 3 step b1 b2 o s d st' d' Hm HRun).
  assert (HA := C90_every_due_iteration e tp m 3 step b1 b2 o s d st' d' Hm HRun).
  destruct (HA 0%nat ltac:(lia) (or_intror eq_refl)) as [p Hp]. destruct (HA 2%nat ltac:(lia) (or_intror eq_refl)) as [q Hq].
  exists st', d', p, q. split; [exact HRun|]. split. { apply HF. left. split; [reflexivity|right; left; reflexivity]. }
  split; [exact Hp|]. split; [exact Hq|].
  split; intros x Hx; apply HF in Hx as [(_ & [E|[E|[]]])|(k & p' & Hk & Hd & E & _)]; try (injection E as E; discriminate).
  - change "it000001.png"%string with (pic_name 1) in E. apply C90_names_distinct in E. subst k. destruct Hd; discriminate.
  - change "it000007.png"%string with (pic_name 7) in E. apply C90_names_distinct in E. lia.
Qed.
